(* generated from tools/P/P_Float.v.in by tools/genp.py: statements only, proofs are references *)
(** Properties C109, C110: what the program computes in floating point.
   [arith] is an arithmetic: one possibly failing operation for each of +, -, *, /, **, sin, cos, tan, log, exp, sqrt, conversion of literals and numpy's inner product of two 4-vectors.
   [accurate u A]: every operation of A whose exact result x exists and has |x| <= 1/u returns a value within u (1 + |x|) of it (inner products: within u (1 + sum of |products|)).
   [exact] is exact real arithmetic; [ieee F L] is the IEEE format F (round to nearest even, gradual underflow, overflow raises) with elementary functions from the libm L;
   [libm_ok F L]: L is accurate to 4 ulp; [usable F]: at least 11 bits and exponent range of at least twice the precision; binary64 is Python's float.
   [runA A], [metric_atA A], [jacobian_gA A], [P4A A], [trajectoryA A], [geodesicA A] are DualNumber arithmetic, a metric callable, _jacobian_g, _P, calculate_trajectory and Geodesic
   with every operation carried out by A; without the suffix: the exact models.
   [vclose e v w], [rows_close e a b]: all components differ by at most e.
   [discriminant g q u1 u2 u3 tl]: the number under the square root of _P. [rational_metric g]: no fractional powers in the metric callable.
   [geodesic_on g q p T]: on [0, T] g evaluates without error along q and (q, p) obeys Hamilton's equations of g.
   [book s prms cov out]: the textbook metric cov of the black hole named s with parameters prms, and its exterior. *)
From Coq Require Import String Ascii Reals List ZArith Lra Lia Bool.
From Coquelicot Require Import Coquelicot.
From Verif Require Import Base Calc DualModel DualSpec DualProofs DualDiff GeoUtilsModel GeoUtilsSpec GeoUtilsProofs GeodesicModel GeodesicProofs
  FantasyModel FantasyProofs FantasyProofs2 FantasyProofs3 FantasyHam FantasySymp FantasyOrder FantasyOrder2 FantasyOrder3 FantasyOrder4 FantasyGlobal FantasyGlobal2 FantasyGlobal3 FantasyCircular FantasySymm FantasySymm2 FantasySymm3 FantasySymm4 FantasySymm5 ProgCont
  RKModel RKProofs RKProg FloatModel FloatExact FloatTrack FloatGlobal FloatTraj FloatIEEE FloatMain FloatRK FloatRK2.
Import ListNotations.
Open Scope R_scope.

(** ---- C109: Geodesic in floating point ---- *)
(** for every named black hole, exterior point and momentum: the motion exists and the rows computed with step h in arithmetic of unit roundoff u are within K (h^n + u/h) of it *)
Theorem C109_named_black_holes : forall s prms cov out x1 x2 x3 u1 u2 u3 tl order w n,
  book s prms cov out -> out x1 x2 -> tl = true \/ u1 <> 0 \/ u2 <> 0 \/ u3 <> 0 ->
  In order [2; 4; 6; 8]%nat -> n = 2%nat \/ (order = 4 /\ n = 4)%nat ->
  exists g guu T q p K r, 0 < T /\ 0 <= K /\ 0 < r /\
  (forall t' r' th' ph', out r' th' -> exists m, metric_at g (mk4 t' r' th' ph') = Ok m /\ inverse_of m (cov r' th')) /\ inverse_of guu (cov x1 x2) /\
  geodesic_on g q p T /\ q 0 = mkQ4 0 x1 x2 x3 /\ on_shell_future guu (p 0) u1 u2 u3 tl /\
  forall u A, 0 <= u -> accurate u A -> forall h N, 0 < h <= r -> u / h <= r -> (0 < N)%nat -> INR N * h <= T ->
  exists P' rows, geodesicA A (MName s) prms (x1, x2, x3) (u1, u2, u3) tl false N h order w = Ok (P', rows) /\ vclose (K * u) P' (p 0) /\ length rows = N /\
  forall k row, nth_error rows k = Some row ->
  vclose (K * (h ^ n + u / h)) (fst row) (q (INR (S k) * h)) /\ vclose (K * (h ^ n + u / h)) (snd row) (p (INR (S k) * h)).
Proof. exact FloatMain.named_rounded. Qed.
Print Assumptions C109_named_black_holes.

(** in particular in every IEEE format of precision p, with u = 2^(4-p) *)
Theorem C109_ieee : forall s prms cov out x1 x2 x3 u1 u2 u3 tl order w n,
  book s prms cov out -> out x1 x2 -> tl = true \/ u1 <> 0 \/ u2 <> 0 \/ u3 <> 0 ->
  In order [2; 4; 6; 8]%nat -> n = 2%nat \/ (order = 4 /\ n = 4)%nat ->
  exists g T q p K r, 0 < T /\ 0 <= K /\ 0 < r /\
  (forall t' r' th' ph', out r' th' -> exists m, metric_at g (mk4 t' r' th' ph') = Ok m /\ inverse_of m (cov r' th')) /\
  geodesic_on g q p T /\ q 0 = mkQ4 0 x1 x2 x3 /\
  forall F L, usable F -> libm_ok F L -> forall h N, 0 < h <= r -> powerRZ 2 (4 - prec F) <= r * h -> (0 < N)%nat -> INR N * h <= T ->
  exists P' rows, geodesicA (ieee F L) (MName s) prms (x1, x2, x3) (u1, u2, u3) tl false N h order w = Ok (P', rows) /\ vclose (K * powerRZ 2 (4 - prec F)) P' (p 0) /\ length rows = N /\
  forall k row, nth_error rows k = Some row ->
  vclose (K * (h ^ n + powerRZ 2 (4 - prec F) / h)) (fst row) (q (INR (S k) * h)) /\ vclose (K * (h ^ n + powerRZ 2 (4 - prec F) / h)) (snd row) (p (INR (S k) * h)).
Proof. exact FloatMain.named_ieee. Qed.
Print Assumptions C109_ieee.

(** for every metric callable and every motion *)
Theorem C109_any_metric : forall m prms x1 x2 x3 u1 u2 u3 tl order w f n call gP gI P (q p : R -> V4) T,
  resolve_metric m = Ok call -> call prms = Ok gP -> call (resolve_params m prms) = Ok gI ->
  well_formed gP -> rational_metric gP -> well_formed gI -> symmetric_program gI ->
  P4 gP (mkQ4 0 x1 x2 x3) u1 u2 u3 tl = Ok P -> 0 < discriminant gP (mkQ4 0 x1 x2 x3) u1 u2 u3 tl ->
  integrator_of order (metricfun_of gI) w = Ok f -> n = 2%nat \/ (order = 4 /\ n = 4)%nat ->
  0 < T -> geodesic_on gI q p T -> q 0 = mkQ4 0 x1 x2 x3 -> p 0 = P ->
  exists K r, 0 <= K /\ 0 < r /\ forall u A, 0 <= u -> accurate u A -> forall h N, 0 < h <= r -> u / h <= r -> (0 < N)%nat -> INR N * h <= T ->
  exists P' rows, geodesicA A m prms (x1, x2, x3) (u1, u2, u3) tl false N h order w = Ok (P', rows) /\ vclose (K * u) P' P /\ length rows = N /\
  forall k row, nth_error rows k = Some row ->
  vclose (K * (h ^ n + u / h)) (fst row) (q (INR (S k) * h)) /\ vclose (K * (h ^ n + u / h)) (snd row) (p (INR (S k) * h)).
Proof. exact FloatTraj.geodesic_rounded. Qed.
Print Assumptions C109_any_metric.

(** calculate_trajectory from initial data with error e0: within K (e0 + h^n + u/h) *)
Theorem C109_trajectory : forall order g w f n (q p : R -> V4) T,
  integrator_of order (metricfun_of g) w = Ok f -> n = 2%nat \/ (order = 4 /\ n = 4)%nat ->
  well_formed g -> symmetric_program g -> 0 < T -> geodesic_on g q p T ->
  exists K r, 0 <= K /\ 0 < r /\ forall u A, 0 <= u -> accurate u A -> forall h N e0 q0 p0, 0 < h <= r -> (0 < N)%nat -> INR N * h <= T ->
  (forall i, (i < 4)%nat -> Rabs (q4nth q0 i - q4nth (q 0) i) <= e0 /\ Rabs (q4nth p0 i - q4nth (p 0) i) <= e0) -> e0 + u / h <= r ->
  exists rows, trajectoryA A g q0 p0 false N h order w = Ok rows /\ length rows = N /\
  forall k row, nth_error rows k = Some row -> forall i, (i < 4)%nat ->
  Rabs (q4nth (fst row) i - q4nth (q (INR (S k) * h)) i) <= K * (e0 + h ^ n + u / h) /\
  Rabs (q4nth (snd row) i - q4nth (p (INR (S k) * h)) i) <= K * (e0 + h ^ n + u / h).
Proof. exact FloatGlobal.trajectory_rounded. Qed.
Print Assumptions C109_trajectory.

(** whenever Geodesic succeeds in exact arithmetic it succeeds in floating point, and all rows (also cartesian) are within C u of the exact ones *)
Theorem C109_close_to_exact : forall m prms pos mom tl cart kw call gP gI geo,
  resolve_metric m = Ok call -> call prms = Ok gP -> call (resolve_params m prms) = Ok gI ->
  well_formed gP -> rational_metric gP -> well_formed gI -> rational_metric gI ->
  mk_geodesic m prms pos mom tl cart kw = Ok geo ->
  0 < discriminant gP (geo_position geo) (fst (fst mom)) (snd (fst mom)) (snd mom) tl ->
  exists r C, 0 < r /\ 0 <= C /\ forall u A d', 0 <= u < r -> accurate u A -> Rabs (d' - k_delta kw) <= u ->
  exists P rows, geodesicA A m prms pos mom tl cart (k_steps kw) d' (k_order kw) (k_omega kw) = Ok (P, rows) /\
  vclose (C * u) P (geo_momentum geo) /\ rows_close (C * u) rows (snd (geo_trajectory geo)).
Proof. exact FloatTraj.geodesic_float. Qed.
Print Assumptions C109_close_to_exact.

Theorem C109_trajectory_close : forall g q0 p0 tl cart kw ids rows,
  well_formed g -> rational_metric g ->
  calculate_trajectory g q0 p0 tl cart kw = Ok (ids, rows) ->
  exists r C, 0 < r /\ 0 <= C /\ forall u A q0' p0' d', 0 <= u < r -> accurate u A -> vclose u q0' q0 -> vclose u p0' p0 -> Rabs (d' - k_delta kw) <= u ->
  exists rows', trajectoryA A g q0' p0' cart (k_steps kw) d' (k_order kw) (k_omega kw) = Ok rows' /\ rows_close (C * u) rows' rows.
Proof. exact FloatTraj.trajectory_float. Qed.
Print Assumptions C109_trajectory_close.

(** so the computed rows converge to the exact ones as the precision grows *)
Theorem C109_precision : forall m prms pos mom tl cart kw call gP gI geo,
  resolve_metric m = Ok call -> call prms = Ok gP -> call (resolve_params m prms) = Ok gI ->
  well_formed gP -> rational_metric gP -> well_formed gI -> rational_metric gI ->
  mk_geodesic m prms pos mom tl cart kw = Ok geo ->
  0 < discriminant gP (geo_position geo) (fst (fst mom)) (snd (fst mom)) (snd mom) tl ->
  exists p0 C, 0 <= C /\ forall F L, usable F -> libm_ok F L -> (p0 <= prec F)%Z ->
  exists P rows, geodesicA (ieee F L) m prms pos mom tl cart (k_steps kw) (k_delta kw) (k_order kw) (k_omega kw) = Ok (P, rows) /\
  vclose (C * powerRZ 2 (4 - prec F)) P (geo_momentum geo) /\ rows_close (C * powerRZ 2 (4 - prec F)) rows (snd (geo_trajectory geo)).
Proof. exact FloatMain.geodesic_precision. Qed.
Print Assumptions C109_precision.

(** the float program run on exact arithmetic is the exact model *)
Theorem C109_exact_trajectory : forall g q0 p0 tl cart kw,
  trajectoryA exact g q0 p0 cart (k_steps kw) (k_delta kw) (k_order kw) (k_omega kw) = mapR snd (calculate_trajectory g q0 p0 tl cart kw).
Proof. exact FloatExact.trajectory_exact. Qed.
Print Assumptions C109_exact_trajectory.

Theorem C109_exact_is_accurate : 
  accurate 0 exact.
Proof. exact FloatGlobal.exact_accurate. Qed.
Print Assumptions C109_exact_is_accurate.

Theorem C109_ieee_is_accurate : forall F L,
  usable F -> libm_ok F L -> accurate (uF F) (ieee F L).
Proof. exact FloatIEEE.ieee_accurate. Qed.
Print Assumptions C109_ieee_is_accurate.

Theorem C109_coarser : forall u u' A,
  u <= u' -> accurate u A -> accurate u' A.
Proof. exact FloatGlobal.accurate_le. Qed.
Print Assumptions C109_coarser.

Example C109_nonvacuous : usable binary64 /\ usable binary128 /\ libm_ok binary64 (nearest_libm binary64) /\ uF binary64 = / 562949953421312 /\
  book "Kerr" [9/10] (kn_cov (9/10) 0) (fun r th => 0 < r /\ 0 < DeltaS r (9/10) 0 /\ sin th <> 0) /\ (0 < 10 /\ 0 < DeltaS 10 (9/10) 0 /\ sin (PI / 2) <> 0).
Proof.
  split; [exact binary64_usable|]. split; [exact binary128_usable|]. split; [apply nearest_libm_ok, binary64_usable|]. split.
  { unfold uF, binary64, prec. cbn -[IZR]. f_equal. }
  split; [constructor|]. unfold DeltaS. rewrite sin_PI2. repeat split; lra.
Qed.
Example C109_nonvacuous_exact : forall pos mom kw, k_order kw = 2%nat -> (0 < k_steps kw)%nat ->
  resolve_metric (MCallable (fun _ => Ok demo)) = Ok (fun _ => Ok demo) /\ well_formed demo /\ rational_metric demo /\
  exists geo, mk_geodesic (MCallable (fun _ => Ok demo)) [] pos mom true false kw = Ok geo /\
  0 < discriminant demo (geo_position geo) (fst (fst mom)) (snd (fst mom)) (snd mom) true.
Proof.
  intros pos mom kw H1 H2. split; [reflexivity|]. split; [apply demo_symmetries|]. split.
  { intros i j Hi Hj. destruct i as [|[|[|[|i]]]]; [| | | |lia]; (destruct j as [|[|[|[|j]]]]; [reflexivity..|lia]). }
  destruct (demo_geodesic pos mom false kw H1 H2) as [geo E]. exists geo. split; [exact E|]. destruct mom as [[u1 u2] u3]. cbn [fst snd].
  unfold discriminant, metric_meaning, demo, zeroE, Ec, mnth. cbv zeta. cbn [q4map q4nth c0 c1 c2 c3 meaning b2R]. rewrite !powerRZ2.
  assert (S1 : 0 <= u1 * u1) by nra. assert (S2 : 0 <= (c1 (geo_position geo) * u2) * (c1 (geo_position geo) * u2)) by nra. assert (S3 : 0 <= (cos (c2 (geo_position geo)) * u3) * (cos (c2 (geo_position geo)) * u3)) by nra.
  cbn [pow]. nra.
Qed.
Example C109_nonvacuous_geodesic : forall T, 0 < T -> well_formed lin_metric /\ symmetric_program lin_metric /\ geodesic_on lin_metric lin_q lin_p T
  /\ exists f, integrator_of 4 (metricfun_of lin_metric) 1 = Ok f.
Proof. intros T HT. split; [exact lin_wf|]. split; [exact lin_sym|]. split; [apply lin_geodesic_on; exact HT|]. eexists. reflexivity. Qed.

(** ---- C110: evaluating programs, derivatives and metrics in floating point ---- *)
(** a program evaluated near X is within C u of its exact value at X *)
Theorem C110_program : forall n e (X : nat -> R),
  below n e = true -> defined_at X e ->
  exists r C, 0 < r /\ 0 <= C /\ forall u A x, 0 <= u < r -> accurate u A -> (forall i, (i < n)%nat -> Rabs (x i - X i) <= u) ->
  exists v, runA A (fun i => PF (x i)) e = Ok (PF v) /\ Rabs (v - meaning X e) <= C * u.
Proof. exact FloatTraj.program_rounded. Qed.
Print Assumptions C110_program.

(** DualNumber: value and derivative *)
Theorem C110_dual : forall n e (X : nat -> R) k,
  below n e = true -> defined_at X e -> (k < n)%nat ->
  exists r C D, 0 < r /\ 0 <= C /\ is_derive (fun t => meaning (upd X k t) e) (X k) D /\
  forall u A x, 0 <= u < r -> accurate u A -> (forall i, (i < n)%nat -> Rabs (x i - X i) <= u) ->
  exists w, runA A (fun i => PD (mkdual (x i) (if Nat.eqb i k then 1 else 0))) e = Ok w /\ Rabs (pval w - meaning X e) <= C * u /\ Rabs (pderiv w - D) <= C * u.
Proof. exact FloatMain.dual_derivative. Qed.
Print Assumptions C110_dual.

Theorem C110_metric : forall g q,
  well_formed g -> metric_defined g (q4nth q) ->
  exists r C, 0 < r /\ 0 <= C /\ forall u A q', 0 <= u < r -> accurate u A -> vclose u q' q ->
  exists m, metric_atA A g q' = Ok m /\ forall i k, (i < 4)%nat -> (k < 4)%nat -> Rabs (mnth m i k - mnth (metric_meaning g (q4nth q)) i k) <= C * u.
Proof. exact FloatTraj.metric_rounded. Qed.
Print Assumptions C110_metric.

(** _jacobian_g: the true partial derivatives of the metric *)
Theorem C110_jacobian : forall g q k,
  well_formed g -> symmetric_program g -> metric_defined g (q4nth q) -> (k < 4)%nat ->
  exists r C D, 0 < r /\ 0 <= C /\ (forall a b, (a < 4)%nat -> (b < 4)%nat -> is_derive (fun t => mnth (metric_meaning g (q4nth (vupd q k t))) a b) (q4nth q k) (D a b)) /\
  forall u A q', 0 <= u < r -> accurate u A -> vclose u q' q ->
  exists m, jacobian_gA A g q' k = Ok m /\ forall a b, (a < 4)%nat -> (b < 4)%nat -> Rabs (mnth m a b - D a b) <= C * u.
Proof. exact FloatTraj.jacobian_rounded. Qed.
Print Assumptions C110_jacobian.

(** _P *)
Theorem C110_momentum : forall g q u1 u2 u3 tl P,
  well_formed g -> rational_metric g -> P4 g q u1 u2 u3 tl = Ok P -> 0 < discriminant g q u1 u2 u3 tl ->
  exists r C, 0 < r /\ 0 <= C /\ forall u A, 0 <= u < r -> accurate u A -> exists P', P4A A g q u1 u2 u3 tl = Ok P' /\ vclose (C * u) P' P.
Proof. exact FloatTraj.P4_rounded. Qed.
Print Assumptions C110_momentum.

Theorem C110_exact_program : forall env e,
  runA exact env e = runP env e.
Proof. exact FloatExact.run_exactA. Qed.
Print Assumptions C110_exact_program.

Theorem C110_exact_jacobian : forall g q k,
  (k < 4)%nat -> jacobian_gA exact g q k = jacobian_g g q (Z.of_nat k).
Proof. exact FloatExact.jacobian_exact. Qed.
Print Assumptions C110_exact_jacobian.

Theorem C110_exact_momentum : forall g q u1 u2 u3 tl v,
  P4A exact g q u1 u2 u3 tl = Ok v <-> P4 g q u1 u2 u3 tl = Ok v.
Proof. exact FloatExact.P4_exact. Qed.
Print Assumptions C110_exact_momentum.

Theorem C110_named : 
  rational_metric schE /\ (forall a, rational_metric (kerrE a)) /\ (forall a Q, rational_metric (kerrnewmanE a Q)).
Proof. exact FloatTraj.builtin_rational. Qed.
Print Assumptions C110_named.

Example C110_nonvacuous : let e := EDiv (ESin (EVar 0)) (EAdd (EPow (EVar 1) 2) (EConst 1)) in below 2 e = true /\ defined_at (fun _ => 1) e /\
  metric_defined schE (q4nth (mk4 0 4 (PI / 2) 0)) /\ well_formed schE /\ symmetric_program schE /\ 0 < discriminant schE (mk4 0 4 (PI / 2) 0) 1 0 0 false /\
  exists P, P4 schE (mk4 0 4 (PI / 2) 0) 1 0 0 false = Ok P.
Proof.
  intros e. split; [reflexivity|]. split; [simpl; split; [exact Logic.I|]; split; [split; [split; [exact Logic.I|left; lia]|exact Logic.I]|]; lra|].
  assert (S1 : sin (PI / 2) <> 0) by (rewrite sin_PI2; lra).
  split; [apply sch_defined; lra || assumption|]. split; [apply is_kn_sch|]. split; [apply is_kn_sch|]. split.
  - unfold discriminant. rewrite sch_meaning by (lra || assumption). assert (X := kn_discr_strict 0 0 4 (PI / 2) 1 0 0 false ltac:(lra) ltac:(lra) ltac:(unfold DeltaS; lra) S1 ltac:(right; left; lra)).
    unfold discr in X. cbv zeta. cbn [pow]. rewrite !Rmult_1_r in *. rewrite !Rmult_0_l, !Rmult_0_r in *. exact X.
  - destruct (P4_sch 0 4 (PI / 2) 0 1 0 0 false ltac:(lra) S1) as (guu & P & _ & E & _). exists P. exact E.
Qed.

(** ---- C111: RK4naive in floating point ---- *)
(** after k steps of size h (forwards or backwards) in arithmetic of unit roundoff u, from inputs with error e0, time and solution are within K (e0 + |h|^4 + u/|h|) of the true ones *)
Theorem C111_rounded : forall n es (y : R -> Y) t0 T,
  system n es -> T <> 0 ->
  (forall t, Rmin t0 (t0 + T) <= t <= Rmax t0 (t0 + T) -> defined_for n es t (y t) /\ solves_near n (program_rhs es) y t) ->
  exists K r, 0 <= K /\ 0 < r /\ forall u A, 0 <= u -> accurate u A -> forall h N e0 t0' y0 tb, 0 < h * T -> Rabs h <= r -> INR N * Rabs h <= Rabs T ->
  Rabs (t0' - t0) <= e0 -> (forall i, (i < n)%nat -> Rabs (nth i y0 0 - y t0 i) <= e0) -> e0 + u / Rabs h <= r ->
  forall k, (k <= N)%nat -> exists s, rk4_stepsA A n es k (rk4_initA t0' y0 tb h) = Ok s /\
  Rabs (rf_t s - (t0 + INR k * h)) <= K * (e0 + Rabs h ^ 4 + u / Rabs h) /\
  forall i, (i < n)%nat -> Rabs (nth i (rf_y s) 0 - y (t0 + INR k * h) i) <= K * (e0 + Rabs h ^ 4 + u / Rabs h).
Proof. exact FloatRK2.rk4_rounded. Qed.
Print Assumptions C111_rounded.

(** whenever the exact run evaluates the right-hand side where it is defined, the floating-point run succeeds and stays within C u of it *)
Theorem C111_close_to_exact : forall n es t0 (y0 : Y) tb h N,
  system n es ->
  (forall k, (k < N)%nat -> let s := rk4_steps k (rk4_init (program_rhs es) t0 y0 tb h) in def_rk4 n es h (rk_t s) (rk_y s)) ->
  exists r C, 0 < r /\ 0 <= C /\ forall u A t0' y0' h', 0 <= u < r -> accurate u A -> Rabs (t0' - t0) <= u -> Rabs (h' - h) <= u -> (forall i, (i < n)%nat -> Rabs (nth i y0' 0 - y0 i) <= u) ->
  forall k, (k <= N)%nat -> exists s, rk4_stepsA A n es k (rk4_initA t0' y0' tb h') = Ok s /\
  let e := rk4_steps k (rk4_init (program_rhs es) t0 y0 tb h) in
  Rabs (rf_t s - rk_t e) <= C * u /\ forall i, (i < n)%nat -> Rabs (nth i (rf_y s) 0 - rk_y e i) <= C * u.
Proof. exact FloatRK2.rk4_float. Qed.
Print Assumptions C111_close_to_exact.

(** the float program on exact arithmetic is the exact model *)
Theorem C111_exact : forall n es t0 y0 tb h N,
  system n es ->
  (forall k, (k < N)%nat -> let s := rk4_steps k (rk4_init (program_rhs es) t0 (fun i => nth i y0 0) tb h) in def_rk4 n es h (rk_t s) (rk_y s)) ->
  exists s, rk4_stepsA exact n es N (rk4_initA t0 y0 tb h) = Ok s /\
  let e := rk4_steps N (rk4_init (program_rhs es) t0 (fun i => nth i y0 0) tb h) in rf_t s = rk_t e /\ forall i, (i < n)%nat -> nth i (rf_y s) 0 = rk_y e i.
Proof. exact FloatRK2.rk4_exact. Qed.
Print Assumptions C111_exact.

(** the array keeps its length *)
Theorem C111_length : forall A n es,
  forall k s s', rk4_stepsA A n es k s = Ok s' -> length (rf_y s) = n -> length (rf_y s') = n.
Proof. exact FloatRK2.steps_length. Qed.
Print Assumptions C111_length.

Theorem C111_ieee n es (y : R -> Y) t0 T : system n es -> T <> 0 ->
  (forall t, Rmin t0 (t0 + T) <= t <= Rmax t0 (t0 + T) -> defined_for n es t (y t) /\ solves_near n (program_rhs es) y t) ->
  exists K r, 0 <= K /\ 0 < r /\ forall Fm L, usable Fm -> libm_ok Fm L -> forall h N e0 t0' y0 tb, 0 < h * T -> Rabs h <= r -> INR N * Rabs h <= Rabs T ->
  Rabs (t0' - t0) <= e0 -> (forall i, (i < n)%nat -> Rabs (nth i y0 0 - y t0 i) <= e0) -> e0 + uF Fm / Rabs h <= r ->
  forall k, (k <= N)%nat -> exists s, rk4_stepsA (ieee Fm L) n es k (rk4_initA t0' y0 tb h) = Ok s /\
    Rabs (rf_t s - (t0 + INR k * h)) <= K * (e0 + Rabs h ^ 4 + uF Fm / Rabs h) /\
    forall i, (i < n)%nat -> Rabs (nth i (rf_y s) 0 - y (t0 + INR k * h) i) <= K * (e0 + Rabs h ^ 4 + uF Fm / Rabs h).
Proof.
  intros Hs HT H. destruct (FloatRK2.rk4_rounded n es y t0 T Hs HT H) as (K & r & HK & Hr & Q). exists K, r. split; [exact HK|]. split; [exact Hr|]. intros Fm L HU HL.
  apply Q; [unfold uF; apply Rlt_le, Flocq.Core.Raux.bpow_gt_0|apply ieee_accurate; assumption].
Qed.
Print Assumptions C111_ieee.
Example C111_nonvacuous : system 1 riccati /\ 1 / 2 <> 0 /\ (forall t, Rmin 0 (0 + 1 / 2) <= t <= Rmax 0 (0 + 1 / 2) -> defined_for 1 riccati t ((fun t _ => / (1 - t * t)) t) /\ solves_near 1 (program_rhs riccati) (fun t _ => / (1 - t * t)) t) /\
  forall N tb k, (k < N)%nat -> let s := rk4_steps k (rk4_init (program_rhs riccati) 0 (fun _ => 1) tb (1 / 8)) in def_rk4 1 riccati (1 / 8) (rk_t s) (rk_y s).
Proof.
  split; [intros i Hi; reflexivity|]. split; [lra|]. split.
  - intros t. rewrite Rmin_left, Rmax_right by lra. intros Ht. destruct (riccati_solution t ltac:(lra)) as [A B]. split; assumption.
  - intros N tb k _ s. repeat split.
Qed.
