(* generated from tools/P/P_FloatMetric.v.in by tools/genp.py: statements only, proofs are references *)
(** Properties C115, C116, C117, C124: the numeric metric classes in floating point, and RK4naive on their equations of motion.
   [fenv]: an arithmetic and a numpy.linalg.inv; [good K u e]: the arithmetic of e has unit roundoff u, its tangent keeps that relative accuracy where it is large, its operations on 0 are exact,
   and its inverse is either [lu_inv]: LAPACK's elimination with partial pivoting (gesv with the identity as right-hand sides) carried out in the same arithmetic, about which nothing is assumed (C124),
   or any other one with error at most K u cond(m) |m^-1| on a matrix m.
   [sch_covA e ..], [kerr_covA], [kn_covA]: metric_covariant run in e; [contraA]: metric_contravariant; [.._chA]: christoffels; [.._fA]: f_vec, from lambda_ and an 8-vector to an 8-vector;
   [em_covA], [em_contraA]: the electromagnetic tensor.  Without A (MetricModel.v): the same methods in exact arithmetic, to which C33 to C43 and C100, C105 apply.
   [near4 d], [near44 d], [near444 d]: every component (entry) differs by at most d; [vec8 x v]: the 8-vector of position x and velocity v.
   [rounded4 K Kin x Q]: there are C and r > 0 such that Q (C u) e x' holds for every u < r, every e with good K u e and every x' within Kin u of x; [rounded8]: the same with a velocity.
   [moves f_vec X W t]: at t, X has velocity W(t), f_vec (X t) (W t) returns (W(t), acc), and W has derivative acc.  [rk4_initA], [rk4_stepsF A n f k]: the constructor and k steps of RK4naive in A, calling f. *)
From Coq Require Import String Reals List ZArith Lra Lia Bool.
From Coquelicot Require Import Coquelicot.
From Flocq Require Import Core.
From Verif Require Import Base Calc DualModel DualSpec GeoUtilsModel GeoUtilsSpec CoordModel CoordProofs2 ConvModel ConvProofs FantasyModel FantasyHam FantasyCircular
  RKModel RKProg MetricModel MetricSpec MetricProofs MetricProofs2 MetricProofs6 MetricProofs3 MetricProofs4 MetricProofs5 MetricProofs7 MetricUnify MetricHamilton MetricHamilton2 MetricRK PicardProg FloatModel FloatIEEE FloatRK
  FloatRKG FloatLU FloatLU3 FloatMetricModel FloatMetric FloatMetric6 FloatMetric7 FloatMetric8.
Import ListNotations.
Open Scope R_scope.

(** ---- C115 ---- *)
(** Schwarzschild: wherever the exact method returns a value, the method on floats returns one within C u of it *)
Theorem C115_sch_metric : forall (K Kin c G : R) (o : mobj) (x : V4), 0 <= Kin -> c <> 0 ->
  forall g,
  MetricModel.sch_cov c G o x = Ok g -> rounded4 K Kin x (fun d e x' => exists g', sch_covA e c G o x' = Ok g' /\ near44 d g' g).
Proof. exact FloatMetric6.sch_metric_rounded. Qed.
Print Assumptions C115_sch_metric.

Theorem C115_sch_contra : forall (K Kin c G : R) (o : mobj) (x : V4), 0 <= K -> 0 <= Kin -> c <> 0 ->
  forall gi,
  metric_contravariant (MetricModel.sch_cov c G o) x = Ok gi -> rounded4 K Kin x (fun d e x' => exists g', contraA e (sch_covA e c G o) x' = Ok g' /\ near44 d g' gi).
Proof. exact FloatMetric6.sch_contra_rounded. Qed.
Print Assumptions C115_sch_contra.

(** the code computes 1 / tan(theta); the equator, where the tangent is infinite, is included *)
Theorem C115_sch_christoffels : forall (K Kin c G : R) (o : mobj) (x : V4), 0 <= Kin -> c <> 0 ->
  forall ch,
  sch_christoffels c G o x = Ok ch -> rounded4 K Kin x (fun d e x' => exists ch', sch_chA e c G o x' = Ok ch' /\ near444 d ch' ch).
Proof. exact FloatMetric6.sch_ch_rounded. Qed.
Print Assumptions C115_sch_christoffels.

Theorem C115_sch_f_vec : forall (K Kin c G : R) (o : mobj) (x v : V4), 0 <= Kin -> c <> 0 ->
  forall w a t,
  sch_f_vec c G o x v = Ok (w, a) -> w = v /\ rounded8 K Kin x v (fun d e x' v' => exists y, sch_fA e c G o t (vec8 x' v') = Ok y /\
  forall i, (i < 4)%nat -> Rabs (nth i y 0 - q4nth v i) <= d /\ Rabs (nth (4 + i) y 0 - q4nth a i) <= d).
Proof. exact FloatMetric6.sch_f_rounded. Qed.
Print Assumptions C115_sch_f_vec.

(** Kerr *)
Theorem C115_kerr_metric : forall (K Kin c G Cc : R) (o : mobj) (x : V4), 0 <= Kin -> c <> 0 ->
  forall g,
  kerr_cov c G Cc o x = Ok g -> rounded4 K Kin x (fun d e x' => exists g', kerr_covA e c G Cc o x' = Ok g' /\ near44 d g' g).
Proof. exact FloatMetric6.kerr_metric_rounded. Qed.
Print Assumptions C115_kerr_metric.

Theorem C115_kerr_contra : forall (K Kin c G Cc : R) (o : mobj) (x : V4), 0 <= K -> 0 <= Kin -> c <> 0 ->
  forall gi,
  metric_contravariant (kerr_cov c G Cc o) x = Ok gi -> rounded4 K Kin x (fun d e x' => exists g', contraA e (kerr_covA e c G Cc o) x' = Ok g' /\ near44 d g' gi).
Proof. exact FloatMetric6.kerr_contra_rounded. Qed.
Print Assumptions C115_kerr_contra.

Theorem C115_kerr_christoffels : forall (K Kin c G Cc : R) (o : mobj) (x : V4), 0 <= K -> 0 <= Kin -> c <> 0 ->
  forall ch,
  kerr_christoffels c G Cc o x = Ok ch -> rounded4 K Kin x (fun d e x' => exists ch', kerr_chA e c G Cc o x' = Ok ch' /\ near444 d ch' ch).
Proof. exact FloatMetric6.kerr_ch_rounded. Qed.
Print Assumptions C115_kerr_christoffels.

Theorem C115_kerr_f_vec : forall (K Kin c G Cc : R) (o : mobj) (x v : V4), 0 <= K -> 0 <= Kin -> c <> 0 ->
  forall w a t,
  kerr_f_vec c G Cc o x v = Ok (w, a) -> w = v /\ rounded8 K Kin x v (fun d e x' v' => exists y, kerr_fA e c G Cc o t (vec8 x' v') = Ok y /\
  forall i, (i < 4)%nat -> Rabs (nth i y 0 - q4nth v i) <= d /\ Rabs (nth (4 + i) y 0 - q4nth a i) <= d).
Proof. exact FloatMetric6.kerr_f_rounded. Qed.
Print Assumptions C115_kerr_f_vec.

(** Kerr-Newman *)
Theorem C115_kn_metric : forall (K Kin c G Cc : R) (o : mobj) (x : V4), 0 <= Kin -> c <> 0 ->
  forall g,
  MetricModel.kn_cov c G Cc o x = Ok g -> rounded4 K Kin x (fun d e x' => exists g', kn_covA e c G Cc o x' = Ok g' /\ near44 d g' g).
Proof. exact FloatMetric6.kn_metric_rounded. Qed.
Print Assumptions C115_kn_metric.

Theorem C115_kn_contra : forall (K Kin c G Cc : R) (o : mobj) (x : V4), 0 <= K -> 0 <= Kin -> c <> 0 ->
  forall gi,
  metric_contravariant (MetricModel.kn_cov c G Cc o) x = Ok gi -> rounded4 K Kin x (fun d e x' => exists g', contraA e (kn_covA e c G Cc o) x' = Ok g' /\ near44 d g' gi).
Proof. exact FloatMetric6.kn_contra_rounded. Qed.
Print Assumptions C115_kn_contra.

Theorem C115_kn_christoffels : forall (K Kin c G Cc : R) (o : mobj) (x : V4), 0 <= K -> 0 <= Kin -> c <> 0 ->
  forall ch,
  kn_christoffels c G Cc o x = Ok ch -> rounded4 K Kin x (fun d e x' => exists ch', kn_chA e c G Cc o x' = Ok ch' /\ near444 d ch' ch).
Proof. exact FloatMetric6.kn_ch_rounded. Qed.
Print Assumptions C115_kn_christoffels.

Theorem C115_kn_f_vec : forall (K Kin c G Cc : R) (o : mobj) (x v : V4), 0 <= K -> 0 <= Kin -> c <> 0 ->
  forall w a t,
  0 < G -> 0 < Cc -> kn_f_vec c G Cc o x v = Ok (w, a) -> w = v /\ rounded8 K Kin x v (fun d e x' v' => exists y, kn_fA e c G Cc o t (vec8 x' v') = Ok y /\
  forall i, (i < 4)%nat -> Rabs (nth i y 0 - q4nth v i) <= d /\ Rabs (nth (4 + i) y 0 - q4nth a i) <= d).
Proof. exact FloatMetric6.kn_f_rounded. Qed.
Print Assumptions C115_kn_f_vec.

(** the electromagnetic tensor *)
Theorem C115_em_covariant : forall (K Kin c G Cc : R) (o : mobj) (x : V4), 0 <= Kin -> c <> 0 ->
  forall f,
  0 < G -> 0 < Cc -> mo_sys o = BL -> em_tensor_covariant c G Cc o x = Ok f -> (exists g, MetricModel.kn_cov c G Cc o x = Ok g) -> rounded4 K Kin x (fun d e x' => exists f', em_covA e c G Cc o (venv 0 (xv x')) = Ok f' /\ near44 d f' f).
Proof. exact FloatMetric6.em_cov_rounded. Qed.
Print Assumptions C115_em_covariant.

Theorem C115_em_contravariant : forall (K Kin c G Cc : R) (o : mobj) (x : V4), 0 <= K -> 0 <= Kin -> c <> 0 ->
  forall f,
  0 < G -> 0 < Cc -> em_tensor_contravariant c G Cc o x = Ok f -> rounded4 K Kin x (fun d e x' => exists f', em_contraA e c G Cc o (venv 0 (xv x')) = Ok f' /\ near44 d f' f).
Proof. exact FloatMetric6.em_rounded. Qed.
Print Assumptions C115_em_contravariant.

(** every IEEE format with a 4-ulp libm and LAPACK's inverse is such an environment, with u = 2^(4-p) *)
Theorem C115_ieee : forall F L,
  usable F -> libm_ok F L -> tan_lib F L -> l_pow L 0 2 = Ok 0 -> good 0 (uF F) (mkfenv (ieee F L) (lu_inv (ieee F L))).
Proof. exact FloatMetric8.ieee_lu_good. Qed.
Print Assumptions C115_ieee.

(** and with any inverse of bounded error *)
Theorem C115_ieee_any : forall K F L inv,
  usable F -> libm_ok F L -> tan_lib F L -> l_pow L 0 2 = Ok 0 -> inverts K (uF F) (mkfenv (ieee F L) inv) -> good K (uF F) (mkfenv (ieee F L) inv).
Proof. exact FloatMetric8.ieee_good. Qed.
Print Assumptions C115_ieee_any.

(** and there is one *)
Theorem C115_ieee_exists : forall F,
  usable F -> good 0 (uF F) (mkfenv (ieee F (nearest_libm' F)) (lu_inv (ieee F (nearest_libm' F)))).
Proof. exact FloatMetric8.nearest_good. Qed.
Print Assumptions C115_ieee_exists.

(** a charged, spinning black hole and a charged particle on its equator (where tan is infinite), in binary64 *)
Example C115_nonvacuous : let o := wit 1 1 NKerrNewman (1/2) 1 (1/3) in let x := mkQ4 0 4 (PI / 2) 0 in let v := mkQ4 1 (1/5) (1/7) (1/9) in
  (exists z, kn_f_vec 1 1 1 o x v = Ok z) /\ (exists z, kerr_f_vec 1 1 1 o x v = Ok z) /\
  (exists z, sch_f_vec 1 1 (mkmobj NSchwarzschild Sph (mkqty 1 1 DMass) (mkqty 0 1 DOne) (mkqty 0 1 DCharge) (mkqty 0 1 DOne)) x v = Ok z) /\
  good 0 (uF binary64) (mkfenv (ieee binary64 (nearest_libm' binary64)) (lu_inv (ieee binary64 (nearest_libm' binary64)))) /\ uF binary64 = bpow radix2 (-49).
Proof.
  intros o x v. assert (D : bl_dom 1 1 o x).
  { unfold o, x. split; [reflexivity|]. split; [unfold valid_spin, wit; cbn [mo_a q_val]; lra|]. rewrite wit_al, wit_rs by lra. unfold sg_of, dl_of. cbn [c1 c2]. rewrite cos_PI2. split; lra. }
  assert (Hs : sin (c2 x) <> 0) by (unfold x; cbn [c2]; rewrite sin_PI2; lra).
  split; [apply kn_f_vec_defined; try lra; assumption|]. split; [apply kerr_f_vec_defined; try lra; assumption|].
  split; [|split; [apply nearest_good, binary64_usable|reflexivity]].
  set (os := mkmobj NSchwarzschild _ _ _ _ _).
  assert (E : exists ch, sch_christoffels 1 1 os (mkQ4 0 4 (PI / 2) 0) = Ok ch).
  { apply sch_christoffels_defined. cbn [c1 c2]. rewrite sin_PI2. unfold sch_rad, schwarzschild_radius, os. cbn [prim mo_M q_val mo_sys]. repeat split; lra. }
  destruct E as [ch E]. unfold sch_f_vec, x. rewrite E. cbn [bindR]. eexists; reflexivity.
Qed.

(** ---- C116 ---- *)
(** RK4naive on Schwarzschild.f_vec in floating point follows every motion *)
Theorem C116_sch : forall K c G o X W t0 T,
  0 <= K -> 0 < c -> T <> 0 -> (forall t, Rmin t0 (t0 + T) <= t <= Rmax t0 (t0 + T) -> locally t (moves (sch_f_vec c G o) X W)) ->
  exists C r, 0 <= C /\ 0 < r /\ forall u e, 0 <= u -> good K u e -> forall h N e0 t0' x0 v0 tb, 0 < h * T -> Rabs h <= r -> INR N * Rabs h <= Rabs T ->
  Rabs (t0' - t0) <= e0 -> near4 e0 x0 (X t0) -> near4 e0 v0 (W t0) -> e0 + u / Rabs h <= r ->
  forall k, (k <= N)%nat -> exists s, rk4_stepsF (fe_A e) 8 (sch_fA e c G o) k (rk4_initA t0' (vec8 x0 v0) tb h) = Ok s /\
  Rabs (rf_t s - (t0 + INR k * h)) <= C * (e0 + Rabs h ^ 4 + u / Rabs h) /\
  forall i, (i < 4)%nat -> Rabs (nth i (rf_y s) 0 - q4nth (X (t0 + INR k * h)) i) <= C * (e0 + Rabs h ^ 4 + u / Rabs h) /\
  Rabs (nth (4 + i) (rf_y s) 0 - q4nth (W (t0 + INR k * h)) i) <= C * (e0 + Rabs h ^ 4 + u / Rabs h).
Proof. exact FloatMetric8.sch_rk4_rounded. Qed.
Print Assumptions C116_sch.

(** Kerr *)
Theorem C116_kerr : forall K c G Cc o X W t0 T,
  0 <= K -> 0 < c -> T <> 0 -> (forall t, Rmin t0 (t0 + T) <= t <= Rmax t0 (t0 + T) -> locally t (moves (kerr_f_vec c G Cc o) X W)) ->
  exists C r, 0 <= C /\ 0 < r /\ forall u e, 0 <= u -> good K u e -> forall h N e0 t0' x0 v0 tb, 0 < h * T -> Rabs h <= r -> INR N * Rabs h <= Rabs T ->
  Rabs (t0' - t0) <= e0 -> near4 e0 x0 (X t0) -> near4 e0 v0 (W t0) -> e0 + u / Rabs h <= r ->
  forall k, (k <= N)%nat -> exists s, rk4_stepsF (fe_A e) 8 (kerr_fA e c G Cc o) k (rk4_initA t0' (vec8 x0 v0) tb h) = Ok s /\
  Rabs (rf_t s - (t0 + INR k * h)) <= C * (e0 + Rabs h ^ 4 + u / Rabs h) /\
  forall i, (i < 4)%nat -> Rabs (nth i (rf_y s) 0 - q4nth (X (t0 + INR k * h)) i) <= C * (e0 + Rabs h ^ 4 + u / Rabs h) /\
  Rabs (nth (4 + i) (rf_y s) 0 - q4nth (W (t0 + INR k * h)) i) <= C * (e0 + Rabs h ^ 4 + u / Rabs h).
Proof. exact FloatMetric8.kerr_rk4_rounded. Qed.
Print Assumptions C116_kerr.

(** Kerr-Newman, with charged particles *)
Theorem C116_kn : forall K c G Cc o X W t0 T,
  0 <= K -> 0 < c -> 0 < G -> 0 < Cc -> T <> 0 -> (forall t, Rmin t0 (t0 + T) <= t <= Rmax t0 (t0 + T) -> locally t (moves (kn_f_vec c G Cc o) X W)) ->
  exists C r, 0 <= C /\ 0 < r /\ forall u e, 0 <= u -> good K u e -> forall h N e0 t0' x0 v0 tb, 0 < h * T -> Rabs h <= r -> INR N * Rabs h <= Rabs T ->
  Rabs (t0' - t0) <= e0 -> near4 e0 x0 (X t0) -> near4 e0 v0 (W t0) -> e0 + u / Rabs h <= r ->
  forall k, (k <= N)%nat -> exists s, rk4_stepsF (fe_A e) 8 (kn_fA e c G Cc o) k (rk4_initA t0' (vec8 x0 v0) tb h) = Ok s /\
  Rabs (rf_t s - (t0 + INR k * h)) <= C * (e0 + Rabs h ^ 4 + u / Rabs h) /\
  forall i, (i < 4)%nat -> Rabs (nth i (rf_y s) 0 - q4nth (X (t0 + INR k * h)) i) <= C * (e0 + Rabs h ^ 4 + u / Rabs h) /\
  Rabs (nth (4 + i) (rf_y s) 0 - q4nth (W (t0 + INR k * h)) i) <= C * (e0 + Rabs h ^ 4 + u / Rabs h).
Proof. exact FloatMetric8.kn_rk4_rounded. Qed.
Print Assumptions C116_kn.

(** a circular orbit around a Schwarzschild black hole is a motion for all time *)
Example C116_nonvacuous : let o := mkmobj NSchwarzschild Sph (mkqty 1 1 DMass) (mkqty 0 1 DOne) (mkqty 0 1 DCharge) (mkqty 0 1 DOne) in
  forall t, locally t (moves (sch_f_vec 1 1 o) (fun u => si_point 1 1 o (circ_q 0 0 3 1 u)) (fun u => si_velocity 1 1 o schE (circ_q 0 0 3 1 u) (circ_p 0 0 3 1 u))).
Proof. intros o t. exists (mkposreal 1 Rlt_0_1). intros s _. apply circular_moves; unfold o; cbn [mo_M q_val mo_sys]; [lra|lra|lra|reflexivity]. Qed.
(** and every start of C117 gives a motion around a Kerr or charged Kerr-Newman black hole *)

(** ---- C117 ---- *)
(** wherever f_vec returns a value there is a motion starting there *)
Theorem C117_kerr_motion : forall c G Cc o x v z,
  0 < c -> kerr_f_vec c G Cc o x v = Ok z ->
  exists T X W, 0 < T /\ X 0 = x /\ W 0 = v /\ forall t, Rabs t <= T -> locally t (moves (kerr_f_vec c G Cc o) X W).
Proof. exact FloatMetric8.kerr_motion_exists. Qed.
Print Assumptions C117_kerr_motion.

(** and only one *)
Theorem C117_kerr_motion_unique : forall c G Cc o X W X' W' t,
  0 < c -> X 0 = X' 0 -> W 0 = W' 0 ->
  (forall u, Rmin 0 t <= u <= Rmax 0 t -> locally u (moves (kerr_f_vec c G Cc o) X W) /\ locally u (moves (kerr_f_vec c G Cc o) X' W')) -> X t = X' t /\ W t = W' t.
Proof. exact FloatMetric8.kerr_motion_unique. Qed.
Print Assumptions C117_kerr_motion_unique.

(** Kerr-Newman with a charged particle *)
Theorem C117_charged_motion : forall c G Cc o x v z,
  0 < c -> 0 < G -> 0 < Cc -> kn_f_vec c G Cc o x v = Ok z ->
  exists T X W, 0 < T /\ X 0 = x /\ W 0 = v /\ forall t, Rabs t <= T -> locally t (moves (kn_f_vec c G Cc o) X W).
Proof. exact FloatMetric8.kn_charged_motion_exists. Qed.
Print Assumptions C117_charged_motion.

Theorem C117_charged_motion_unique : forall c G Cc o X W X' W' t,
  0 < c -> 0 < G -> 0 < Cc -> X 0 = X' 0 -> W 0 = W' 0 ->
  (forall u, Rmin 0 t <= u <= Rmax 0 t -> locally u (moves (kn_f_vec c G Cc o) X W) /\ locally u (moves (kn_f_vec c G Cc o) X' W')) -> X t = X' t /\ W t = W' t.
Proof. exact FloatMetric8.kn_charged_motion_unique. Qed.
Print Assumptions C117_charged_motion_unique.

(** RK4naive (exact arithmetic) converges to it with order 4 *)
Theorem C117_kerr_rk4 : forall c G Cc o X W t0 T,
  0 < c -> T <> 0 -> (forall t, Rmin t0 (t0 + T) <= t <= Rmax t0 (t0 + T) -> locally t (moves (kerr_f_vec c G Cc o) X W)) ->
  exists C N0, (0 < N0)%nat /\ forall N tb k i, (N0 <= N)%nat -> (k <= N)%nat -> (i < 4)%nat ->
  let st := rk4_steps k (rk4_init (motion_rhs (kerr_f_vec c G Cc o)) t0 (join (X t0) (W t0)) tb (T / INR N)) in
  rk_t st = t0 + INR k * (T / INR N) /\
  Rabs (q4nth (pos (rk_y st)) i - q4nth (X (t0 + INR k * (T / INR N))) i) <= C * (Rabs T / INR N) ^ 4 /\
  Rabs (q4nth (vel (rk_y st)) i - q4nth (W (t0 + INR k * (T / INR N))) i) <= C * (Rabs T / INR N) ^ 4.
Proof. exact FloatMetric8.kerr_rk4. Qed.
Print Assumptions C117_kerr_rk4.

Theorem C117_charged_rk4 : forall c G Cc o X W t0 T,
  0 < c -> 0 < G -> 0 < Cc -> T <> 0 -> (forall t, Rmin t0 (t0 + T) <= t <= Rmax t0 (t0 + T) -> locally t (moves (kn_f_vec c G Cc o) X W)) ->
  exists C N0, (0 < N0)%nat /\ forall N tb k i, (N0 <= N)%nat -> (k <= N)%nat -> (i < 4)%nat ->
  let st := rk4_steps k (rk4_init (motion_rhs (kn_f_vec c G Cc o)) t0 (join (X t0) (W t0)) tb (T / INR N)) in
  rk_t st = t0 + INR k * (T / INR N) /\
  Rabs (q4nth (pos (rk_y st)) i - q4nth (X (t0 + INR k * (T / INR N))) i) <= C * (Rabs T / INR N) ^ 4 /\
  Rabs (q4nth (vel (rk_y st)) i - q4nth (W (t0 + INR k * (T / INR N))) i) <= C * (Rabs T / INR N) ^ 4.
Proof. exact FloatMetric8.kn_charged_rk4. Qed.
Print Assumptions C117_charged_rk4.

Example C117_nonvacuous : exists T X W, 0 < T /\ X 0 = mkQ4 0 4 (PI / 2) 0 /\ W 0 = mkQ4 1 (1/5) (1/7) (1/9) /\ q_val (mo_q (wit 1 1 NKerrNewman (1/2) 1 (1/3))) <> 0 /\
  forall t, Rabs t <= T -> locally t (moves (kn_f_vec 1 1 1 (wit 1 1 NKerrNewman (1/2) 1 (1/3))) X W).
Proof.
  destruct C115_nonvacuous as ((z & E) & _). destruct (C117_charged_motion _ _ _ _ _ _ _ Rlt_0_1 Rlt_0_1 Rlt_0_1 E) as (T & X & W & H1 & H2 & H3 & H4).
  exists T, X, W. split; [exact H1|]. split; [exact H2|]. split; [exact H3|]. split; [cbn [wit mo_q q_val]; lra|exact H4].
Qed.

(** ---- C124 ---- *)
(** [lu_inv A m]: numpy.linalg.inv(m) in the arithmetic A; [np_inv m] (MetricModel.v): the inverse of m in exact arithmetic, LinAlgError when there is none; [is_inverse m w]: m w = w m = 1. *)
(** in exact arithmetic the elimination returns the inverse, and raises LinAlgError exactly when there is none *)
Theorem C124_exact : forall m,
  lu_inv exact m = np_inv m.
Proof. exact FloatLU5.lu_inv_exact. Qed.
Print Assumptions C124_exact.

(** near every invertible matrix the inverse computed in floating point exists and is within C u of the exact one *)
Theorem C124_accurate : forall l li,
  is_inverse l li -> exists r C, 0 < r /\ 0 <= C /\ forall u A v vi, 0 <= u < r -> accurate u A -> (forall i j, (i < 4)%nat -> (j < 4)%nat -> Rabs (mnth v i j - mnth l i j) <= r) -> is_inverse v vi ->
  exists w, lu_inv A v = Ok w /\ forall i j, (i < 4)%nat -> (j < 4)%nat -> Rabs (mnth w i j - mnth vi i j) <= C * u.
Proof. exact FloatLU5.lu_local. Qed.
Print Assumptions C124_accurate.

(** the same for n equations and q right-hand sides: a row of R0 is the coefficients of an equation followed by its right-hand sides; [nonsing]: the homogeneous system has no other solution than 0;
    [accurate_near n q go R0 r C]: for every u < r, every system R1 within r of R0 with the solution X (n rows, q columns) and every R' within u of R1, X is bounded by C and go in an arithmetic with unit roundoff u returns a solution of R' within C u of X *)
Theorem C124_solve : forall n,
  forall q R0, shape n (n + q) R0 -> nonsing n q R0 -> exists r C, 0 < r /\ 0 <= C /\ accurate_near n q (fun A => gesvA A n) R0 r C.
Proof. exact FloatLU4.gesv_ok. Qed.
Print Assumptions C124_solve.

Theorem C124_solve_exact : forall n,
  forall q R0, shape n (n + q) R0 -> gesvA exact n R0 = Err LinAlgError \/ exists X, gesvA exact n R0 = Ok X /\ shape n q X /\ solves q X R0.
Proof. exact FloatLU5.gesv_exact. Qed.
Print Assumptions C124_solve_exact.

(** a matrix on which the elimination has to exchange rows *)
Example C124_nonvacuous : let m := mkQ4 (mkQ4 0 2 0 0) (mkQ4 3 1 0 0) (mkQ4 0 0 0 4) (mkQ4 1 0 5 0) in let w := mkQ4 (mkQ4 (-1/6) (1/3) 0 0) (mkQ4 (1/2) 0 0 0) (mkQ4 (1/30) (-1/15) 0 (1/5)) (mkQ4 0 0 (1/4) 0) in
  is_inverse m w /\ lu_inv exact m = Ok w /\ (exists r C, 0 < r /\ 0 <= C /\ forall u A, 0 <= u < r -> accurate u A -> exists w', lu_inv A m = Ok w' /\ near44 (C * u) w' w).
Proof.
  intros m w. assert (H : is_inverse m w) by (split; unfold m, w; cbv [mm mv transpose mtab q4tab q4map dot mnth q4nth c0 c1 c2 c3 id4 Nat.eqb]; repeat f_equal; lra).
  split; [exact H|]. split.
  - rewrite C124_exact. destruct (np_inv m) as [g|x] eqn:E; [f_equal; apply (inverse_unique m); [apply np_inv_ok; exact E|exact H]|].
    exfalso. assert (Q : np_inv m = Err LinAlgError) by (unfold np_inv in E |- *; destruct (Req_EM_T (det4 m) 0); [reflexivity|discriminate E]). apply np_inv_fails_iff in Q. apply Q. exists w. exact H.
  - destruct (C124_accurate m w H) as (r & C & P1 & P2 & Q). exists r, C. split; [exact P1|]. split; [exact P2|]. intros u A Hu HA.
    destruct (Q u A m w Hu HA) as (w' & E & B). { intros i j _ _. rewrite Rminus_eq_0, Rabs_R0. lra. } { exact H. } exists w'. split; [exact E|]. intros i j Hi Hj. apply B; assumption.
Qed.
