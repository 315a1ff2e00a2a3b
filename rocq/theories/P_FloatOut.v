(* generated from tools/P/P_FloatOut.v.in by tools/genp.py: statements only, proofs are references *)
(** Properties C122, C123: Cartesian output in floating point.
   [accurate u A], [geodesicA A ..], [trajectoryA A ..], [vclose d x y]: see P_Float.v; the eighth argument of geodesicA is return_cartesian (true: the default), [to_cartesian (t, r, th, ph)] = (t, r sin th cos ph, r sin th sin ph, r cos th).
   [geodesic_on g q p T]: q, p is a motion of the metric g on [0, T].
   [good K u e], [accurate2 u B], [moves f_vec X W t], [timelike_lift], [si_position], [four_vel], [lift3], [to_sph], [to_bl]: see P_FloatFlow.v; [from_sph], [from_bl]: the conversions back to Cartesian coordinates (C113).
   [cart_outA B e conv back c cov f p v al tb h k]: convert the Cartesian position p and velocity v, take k steps of RK4naive, convert the position and spatial velocity reached back to Cartesian coordinates.
   [cart_curve Y V T]: V is the rate of change of the Cartesian position Y on [0, T].
   [out_rounded .. p v al Y V T]: there are C and r > 0 such that for all u, B, e, inputs within Kin u of p, v, al, steps h <= r with u / h <= r, and k <= N with N h <= T, cart_outA succeeds and its position and velocity are within C (h^4 + u / h) of Y (k h) and V (k h). *)
From Coq Require Import String Reals List ZArith Lra Lia Bool.
From Coquelicot Require Import Coquelicot.
From Verif Require Import Base Calc DualModel DualSpec DualProofs DualDiff GeoUtilsModel GeoUtilsSpec GeoUtilsProofs GeodesicModel GeodesicProofs FantasyModel FantasyProofs FantasyProofs2 FantasyProofs3 FantasyHam FantasySymp FantasyOrder FantasyOrder2 FantasyOrder3 FantasyOrder4 FantasyGlobal FantasyGlobal2 FantasyGlobal3 FantasyCircular FantasySymm FantasySymm2 FantasySymm3 FantasySymm4 FantasySymm5 ProgCont CoordModel ConvModel ConvProofs2 MetricModel MetricSpec MetricProofs MetricProofs2 MetricProofs3 MetricProofs5 MetricHamilton2 FloatModel FloatTraj FloatMain FloatRK FloatRKG FloatMetricModel FloatMetric FloatMetric6 FloatVel FloatFlow CoordProofs3 FloatCoordModel FloatCoord FloatCoordMain FloatCart FloatOut FloatOut2 FloatOut3 FloatOut4.
Import ListNotations.
Open Scope R_scope.

(** ---- C122 ---- *)
(** with return_cartesian=True the positions are within K (h^n + u/h) of the Cartesian image of the motion *)
Theorem C122_named_black_holes : forall s prms cov out x1 x2 x3 u1 u2 u3 tl order w n,
  book s prms cov out -> out x1 x2 -> tl = true \/ u1 <> 0 \/ u2 <> 0 \/ u3 <> 0 ->
  In order [2; 4; 6; 8]%nat -> n = 2%nat \/ (order = 4 /\ n = 4)%nat ->
  exists g guu T q p K r, 0 < T /\ 0 <= K /\ 0 < r /\
  (forall t' r' th' ph', out r' th' -> exists m, metric_at g (mk4 t' r' th' ph') = Ok m /\ inverse_of m (cov r' th')) /\ inverse_of guu (cov x1 x2) /\
  geodesic_on g q p T /\ q 0 = mkQ4 0 x1 x2 x3 /\ on_shell_future guu (p 0) u1 u2 u3 tl /\
  forall u A, 0 <= u -> accurate u A -> forall h N, 0 < h <= r -> u / h <= r -> (0 < N)%nat -> INR N * h <= T ->
  exists P' rows, geodesicA A (MName s) prms (x1, x2, x3) (u1, u2, u3) tl true N h order w = Ok (P', rows) /\ vclose (K * u) P' (p 0) /\ length rows = N /\
  forall k row, nth_error rows k = Some row ->
  vclose (K * (h ^ n + u / h)) (fst row) (to_cartesian (q (INR (S k) * h))) /\ vclose (K * (h ^ n + u / h)) (snd row) (p (INR (S k) * h)).
Proof. exact FloatOut3.named_cartesian. Qed.
Print Assumptions C122_named_black_holes.

(** for every metric callable and every motion *)
Theorem C122_any_metric : forall m prms x1 x2 x3 u1 u2 u3 tl order w f n call gP gI P (q p : R -> V4) T,
  resolve_metric m = Ok call -> call prms = Ok gP -> call (resolve_params m prms) = Ok gI ->
  well_formed gP -> rational_metric gP -> well_formed gI -> symmetric_program gI ->
  P4 gP (mkQ4 0 x1 x2 x3) u1 u2 u3 tl = Ok P -> 0 < discriminant gP (mkQ4 0 x1 x2 x3) u1 u2 u3 tl ->
  integrator_of order (metricfun_of gI) w = Ok f -> n = 2%nat \/ (order = 4 /\ n = 4)%nat ->
  0 < T -> geodesic_on gI q p T -> q 0 = mkQ4 0 x1 x2 x3 -> p 0 = P ->
  exists K r, 0 <= K /\ 0 < r /\ forall u A, 0 <= u -> accurate u A -> forall h N, 0 < h <= r -> u / h <= r -> (0 < N)%nat -> INR N * h <= T ->
  exists P' rows, geodesicA A m prms (x1, x2, x3) (u1, u2, u3) tl true N h order w = Ok (P', rows) /\ vclose (K * u) P' P /\ length rows = N /\
  forall k row, nth_error rows k = Some row ->
  vclose (K * (h ^ n + u / h)) (fst row) (to_cartesian (q (INR (S k) * h))) /\ vclose (K * (h ^ n + u / h)) (snd row) (p (INR (S k) * h)).
Proof. exact FloatOut3.geodesic_cartesian. Qed.
Print Assumptions C122_any_metric.

(** calculate_trajectory from initial data with error e0 *)
Theorem C122_trajectory : forall order g w f n (q p : R -> V4) T,
  integrator_of order (metricfun_of g) w = Ok f -> n = 2%nat \/ (order = 4 /\ n = 4)%nat -> well_formed g -> symmetric_program g -> 0 < T -> geodesic_on g q p T ->
  exists K r, 0 <= K /\ 0 < r /\ forall u A, 0 <= u -> accurate u A -> forall h N e0 q0 p0, 0 < h <= r -> (0 < N)%nat -> INR N * h <= T -> vclose e0 q0 (q 0) -> vclose e0 p0 (p 0) -> e0 + u / h <= r ->
  exists rows, trajectoryA A g q0 p0 true N h order w = Ok rows /\ length rows = N /\
  forall k row, nth_error rows k = Some row -> vclose (K * (e0 + h ^ n + u / h)) (fst row) (to_cartesian (q (INR (S k) * h))) /\ vclose (K * (e0 + h ^ n + u / h)) (snd row) (p (INR (S k) * h)).
Proof. exact FloatOut3.trajectory_cartesian. Qed.
Print Assumptions C122_trajectory.

(** in any arithmetic the two modes differ by the conversion of the positions only *)
Theorem C122_modes : forall A m prms pos mom tl N h order w,
  geodesicA A m prms pos mom tl true N h order w =
  let* pr := geodesicA A m prms pos mom tl false N h order w in let* rows := seqR (fun r : row => let* x := to_cartesianA A (fst r) in Ok (x, snd r)) (snd pr) in Ok (fst pr, rows).
Proof. exact FloatOut3.geodesic_modes. Qed.
Print Assumptions C122_modes.

Example C122_nonvacuous : forall T, 0 < T -> well_formed lin_metric /\ symmetric_program lin_metric /\ geodesic_on lin_metric lin_q lin_p T
  /\ exists f, integrator_of 4 (metricfun_of lin_metric) 1 = Ok f.
Proof. intros T HT. split; [exact lin_wf|]. split; [exact lin_sym|]. split; [apply lin_geodesic_on; exact HT|]. eexists. reflexivity. Qed.
Example C122_nonvacuous_named : book "Kerr" [9/10] (GeoUtilsSpec.kn_cov (9/10) 0) (fun r th => 0 < r /\ 0 < DeltaS r (9/10) 0 /\ sin th <> 0) /\ (0 < 10 /\ 0 < DeltaS 10 (9/10) 0 /\ sin (PI / 2) <> 0).
Proof. split; [constructor|]. unfold DeltaS. rewrite sin_PI2. lra. Qed.

(** ---- C123 ---- *)
(** off the z axis; the half plane where the azimuth jumps is included *)
Theorem C123_schwarzschild : forall K Kin c G o p v al w' g,
  0 <= K -> 0 <= Kin -> 0 < c -> 0 < G -> off_z_axis p ->
  let s := cart_to_sph (c0 p) (c1 p) (c2 p) (c3 p) in cart_to_sph_vel (c1 p) (c2 p) (c3 p) (v1 v) (v2 v) (v3 v) = Ok w' ->
  MetricModel.sch_cov c G o (si_position c s) = Ok g -> 0 < mnth g 0 0 -> norm2 g (four_vel 0 (lift3 w')) < c ^ 2 ->
  exists w, timelike_lift c g (lift3 w') w /\
  (exists T X W, 0 < T /\ X 0 = si_position c s /\ W 0 = four_vel w (lift3 w') /\ forall t, 0 <= t <= T -> locally t (moves (sch_f_vec c G o) X W)) /\
  forall T X W, 0 < T -> X 0 = si_position c s -> W 0 = four_vel w (lift3 w') -> (forall t, 0 <= t <= T -> locally t (moves (sch_f_vec c G o) X W)) ->
  let Y := fun t => sph_to_cart (c0 (X t)) (c1 (X t)) (c2 (X t)) (c3 (X t)) in
  exists V, cart_curve Y V T /\ Y 0 = mkQ4 (c * c0 p) (c1 p) (c2 p) (c3 p) /\ V 0 = v /\
  out_rounded K Kin c to_sph from_sph (fun e => sch_covA e c G o) (fun e => sch_fA e c G o) p v al Y V T.
Proof. exact FloatOut4.sch_out. Qed.
Print Assumptions C123_schwarzschild.

(** al is the rotation parameter alpha(M, a) *)
Theorem C123_kerr : forall (K Kin c G Cc : R) (o : mobj) (p : V4) (v : V3) (al : R) (s : V4) (w' : V3) (g : M4), 0 <= K -> 0 <= Kin -> 0 < c -> c1 p <> 0 -> al = al_of c G o -> 0 < bl_r (c1 p) (c2 p) (c3 p) al -> cart_to_bl (c0 p) (c1 p) (c2 p) (c3 p) al = Ok s -> cart_to_bl_vel (c1 p) (c2 p) (c3 p) al (v1 v) (v2 v) (v3 v) = Ok w' ->
  
  kerr_cov c G Cc o (si_position c s) = Ok g -> 0 < mnth g 0 0 -> norm2 g (four_vel 0 (lift3 w')) < c ^ 2 ->
  exists w, timelike_lift c g (lift3 w') w /\
  (exists T X W, 0 < T /\ X 0 = si_position c s /\ W 0 = four_vel w (lift3 w') /\ forall t, 0 <= t <= T -> locally t (moves (kerr_f_vec c G Cc o) X W)) /\
  forall T X W, 0 < T -> X 0 = si_position c s -> W 0 = four_vel w (lift3 w') -> (forall t, 0 <= t <= T -> locally t (moves (kerr_f_vec c G Cc o) X W)) ->
  let Y := fun t => bl_to_cart (c0 (X t)) (c1 (X t)) (c2 (X t)) (c3 (X t)) al in
  exists V, cart_curve Y V T /\ Y 0 = mkQ4 (c * c0 p) (c1 p) (c2 p) (c3 p) /\ V 0 = v /\
  out_rounded K Kin c to_bl from_bl (fun e => kerr_covA e c G Cc o) (fun e => kerr_fA e c G Cc o) p v al Y V T.
Proof. exact FloatOut4.kerr_out. Qed.
Print Assumptions C123_kerr.

(** charged particles included *)
Theorem C123_kerr_newman : forall (K Kin c G Cc : R) (o : mobj) (p : V4) (v : V3) (al : R) (s : V4) (w' : V3) (g : M4), 0 <= K -> 0 <= Kin -> 0 < c -> c1 p <> 0 -> al = al_of c G o -> 0 < bl_r (c1 p) (c2 p) (c3 p) al -> cart_to_bl (c0 p) (c1 p) (c2 p) (c3 p) al = Ok s -> cart_to_bl_vel (c1 p) (c2 p) (c3 p) al (v1 v) (v2 v) (v3 v) = Ok w' ->
  
  0 < G -> 0 < Cc -> MetricModel.kn_cov c G Cc o (si_position c s) = Ok g -> 0 < mnth g 0 0 -> norm2 g (four_vel 0 (lift3 w')) < c ^ 2 ->
  exists w, timelike_lift c g (lift3 w') w /\
  (exists T X W, 0 < T /\ X 0 = si_position c s /\ W 0 = four_vel w (lift3 w') /\ forall t, 0 <= t <= T -> locally t (moves (kn_f_vec c G Cc o) X W)) /\
  forall T X W, 0 < T -> X 0 = si_position c s -> W 0 = four_vel w (lift3 w') -> (forall t, 0 <= t <= T -> locally t (moves (kn_f_vec c G Cc o) X W)) ->
  let Y := fun t => bl_to_cart (c0 (X t)) (c1 (X t)) (c2 (X t)) (c3 (X t)) al in
  exists V, cart_curve Y V T /\ Y 0 = mkQ4 (c * c0 p) (c1 p) (c2 p) (c3 p) /\ V 0 = v /\
  out_rounded K Kin c to_bl from_bl (fun e => kn_covA e c G Cc o) (fun e => kn_fA e c G Cc o) p v al Y V T.
Proof. exact FloatOut4.kn_out. Qed.
Print Assumptions C123_kerr_newman.

(** x = - 25/8, y = 0: on the half plane where the azimuth jumps from pi to - pi; charged hole of spin 7/8, charged particle *)
Example C123_nonvacuous : let p := mkQ4 0 (-25/8) 0 0 in let v := mk3 (-12/125) (-5/64) 0 in let o := wit 1 1 NKerrNewman (7/8) 1 (1/3) in let s := mkQ4 0 3 (PI / 2) PI in let w := mk3 (1/10) 0 (1/40) in
  c1 p <> 0 /\ 7/8 = al_of 1 1 o /\ 0 < bl_r (c1 p) (c2 p) (c3 p) (7/8) /\ cart_to_bl (c0 p) (c1 p) (c2 p) (c3 p) (7/8) = Ok s /\ cart_to_bl_vel (c1 p) (c2 p) (c3 p) (7/8) (v1 v) (v2 v) (v3 v) = Ok w /\
  exists g, MetricModel.kn_cov 1 1 1 o (si_position 1 s) = Ok g /\ 0 < mnth g 0 0 /\ norm2 g (four_vel 0 (lift3 w)) < 1 ^ 2.
Proof.
  intros p v o s w. assert (S9 : forall y x, 0 <= x -> x * x = y -> sqrt y = x) by (intros y x Hx <-; apply sqrt_square; exact Hx).
  assert (SW : sqrt ((((-25/8) ^ 2 + 0 ^ 2 + 0 ^ 2) - (7/8) ^ 2) ^ 2 + 4 * (7/8) ^ 2 * 0 ^ 2) = 9) by (apply S9; lra).
  assert (BR : bl_r (-25/8) 0 0 (7/8) = 3). { unfold bl_r, bl_w. rewrite SW. apply S9; lra. }
  split; [cbn; lra|]. split; [unfold o; rewrite wit_al by lra; reflexivity|]. split; [cbn [c1 c2 c3 p]; rewrite BR; lra|]. split; [|split].
  - unfold cart_to_bl, p. cbn [c0 c1 c2 c3]. rewrite BR. unfold np_div. destruct (Req_EM_T 3 0) as [Z|_]; [lra|]. cbn [bindR]. replace (0 / 3) with 0 by lra. unfold np_arccos. destruct (Rle_dec (-1) 0) as [_|N]; [|lra]. destruct (Rle_dec 0 1) as [_|N]; [|lra]. cbn [bindR]. rewrite acos_0. unfold s. do 2 f_equal. unfold atan2. destruct (Rlt_dec 0 (-25/8)) as [N|_]; [lra|]. destruct (Rlt_dec (-25/8) 0) as [_|N]; [|lra]. destruct (Rle_dec 0 0) as [_|N]; [|lra]. replace (0 / (-25/8)) with 0 by lra. rewrite atan_0. ring.
  - unfold cart_to_bl_vel, p, v. cbn [c1 c2 c3 v1 v2 v3]. rewrite BR. unfold bl_w. rewrite SW. unfold np_div, np_sqrt.
    repeat (match goal with |- context [Req_EM_T ?a ?b] => destruct (Req_EM_T a b) as [?Z|_]; [exfalso; lra|] | |- context [Rle_dec ?a ?b] => destruct (Rle_dec a b) as [_|?N]; [|exfalso; lra] | |- context [sqrt ?a] => replace (sqrt a) with 1 by (symmetry; apply S9; lra) end; cbn [bindR]).
    unfold w. apply f_equal. f_equal; lra.
  - assert (HS : sin (c2 s) = 1) by (unfold s; cbn [c2]; apply sin_PI2). assert (HC : cos (c2 s) = 0) by (unfold s; cbn [c2]; apply cos_PI2).
    assert (X1 : c1 (si_position 1 s) = 3) by reflexivity. assert (X2 : c2 (si_position 1 s) = c2 s) by reflexivity.
    assert (DK : bl_dom 1 1 o (si_position 1 s)).
    { split; [reflexivity|]. split; [unfold valid_spin, o, wit; cbn [mo_a q_val]; lra|]. unfold o. rewrite wit_al, wit_rs by lra. unfold sg_of, dl_of. rewrite X1, X2, HC. split; lra. }
    assert (SG : sg_of (7/8) 3 (c2 s) = 9) by (unfold sg_of; rewrite HC; lra). assert (DL : dl_of 2 (7/8) 3 = 241/64) by (unfold dl_of; lra).
    rewrite kn_cov_eq by apply DK. eexists. split; [reflexivity|]. unfold o. rewrite wit_al, wit_rs by lra. rewrite X1, X2, SG, DL. unfold kn_g, four_vel, norm2, dot, mv, mnth, q4map, lift3, w. cbn [q4nth c0 c1 c2 c3 v1 v2 v3]. unfold dot. cbn [q4nth c0 c1 c2 c3]. rewrite HS. split; [lra|]. lra.
Qed.
Example C123_nonvacuous_run : let p := mkQ4 0 (-25/8) 0 0 in let v := mk3 (-12/125) (-5/64) 0 in let o := wit 1 1 NKerrNewman (7/8) 1 (1/3) in
  exists T Y V, 0 < T /\ cart_curve Y V T /\ Y 0 = mkQ4 (1 * 0) (-25/8) 0 0 /\ V 0 = v /\ out_rounded 1 1 1 to_bl from_bl (fun e => kn_covA e 1 1 1 o) (fun e => kn_fA e 1 1 1 o) p v (7/8) Y V T.
Proof.
  intros p v o. destruct C123_nonvacuous as (Hx & Ha & Hr & Es & Ew & g & Eg & H0 & Hn).
  destruct (C123_kerr_newman 1 1 1 1 1 o p v (7/8) _ _ g Rle_0_1 Rle_0_1 Rlt_0_1 Hx Ha Hr Es Ew Rlt_0_1 Rlt_0_1 Eg H0 Hn) as (w & _ & (T & X & W & HT & X0 & W0 & M) & F).
  destruct (F T X W HT X0 W0 M) as (V & H1 & H2 & H3 & H4). exists T, (fun t => bl_to_cart (c0 (X t)) (c1 (X t)) (c2 (X t)) (c3 (X t)) (7/8)), V. split; [exact HT|]. split; [exact H1|]. split; [exact H2|]. split; [exact H3|exact H4].
Qed.
