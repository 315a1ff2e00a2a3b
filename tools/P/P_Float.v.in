(** Properties C109, C110: what the program computes in floating point.
   [arith] is an arithmetic: one possibly failing operation for each of +, -, *, /, **, sin, cos, tan, log, exp, sqrt, conversion of literals and numpy's inner product of two 4-vectors.
   [accurate u A]: every operation of A whose exact result x exists and has |x| <= 1/u returns a value within u (1 + |x|) of it (inner products: within u (1 + sum of |products|)).
   [exact] is exact real arithmetic; [ieee F L] is the IEEE format F (round to nearest even, gradual underflow, overflow raises) with elementary functions from the libm L;
   [libm_ok F L]: L is accurate to 4 ulp; [usable F]: at least 11 bits and exponent range of at least twice the precision; binary64 is Python's float.
   [runA A], [metric_atA A], [jacobian_gA A], [P4A A], [trajectoryA A], [geodesicA A] are DualNumber arithmetic, a metric callable, _jacobian_g, _P, calculate_trajectory and Geodesic
   with every operation carried out by A; without the suffix: the exact models.
   [vclose e v w], [rows_close e a b]: all components differ by at most e.
   [discriminant g q u1 u2 u3 tl]: the number under the square root of _P. [rational_metric g]: no fractional powers in the metric callable.
   [geodesic_on g q p T]: on [0, T] g evaluates without error along q and (q, p) obeys Hamilton's equations of g.
   [book s prms cov out]: the textbook metric cov of the black hole named s with parameters prms, and its exterior. *)
From Coq Require Import String Ascii Reals List ZArith Lra Lia Bool.
From Coquelicot Require Import Coquelicot.
From Verif Require Import Base Calc DualModel DualSpec DualProofs DualDiff GeoUtilsModel GeoUtilsSpec GeoUtilsProofs GeodesicModel GeodesicProofs
  FantasyModel FantasyProofs FantasyProofs2 FantasyProofs3 FantasyHam FantasySymp FantasyOrder FantasyOrder2 FantasyOrder3 FantasyOrder4 FantasyGlobal FantasyGlobal2 FantasyGlobal3 FantasyCircular FantasySymm FantasySymm2 FantasySymm3 FantasySymm4 FantasySymm5 ProgCont
  RKModel RKProofs RKProg FloatModel FloatExact FloatTrack FloatGlobal FloatTraj FloatIEEE FloatMain FloatRK FloatRK2.
Import ListNotations.
Open Scope R_scope.

(** ---- C109: Geodesic in floating point ---- *)
@thm C109_named_black_holes FloatMain.named_rounded -- for every named black hole, exterior point and momentum: the motion exists and the rows computed with step h in arithmetic of unit roundoff u are within K (h^n + u/h) of it
@thm C109_ieee FloatMain.named_ieee -- in particular in every IEEE format of precision p, with u = 2^(4-p)
@thm C109_any_metric FloatTraj.geodesic_rounded -- for every metric callable and every motion
@thm C109_trajectory FloatGlobal.trajectory_rounded -- calculate_trajectory from initial data with error e0: within K (e0 + h^n + u/h)
@thm C109_close_to_exact FloatTraj.geodesic_float -- whenever Geodesic succeeds in exact arithmetic it succeeds in floating point, and all rows (also cartesian) are within C u of the exact ones
@thm C109_trajectory_close FloatTraj.trajectory_float
@thm C109_precision FloatMain.geodesic_precision -- so the computed rows converge to the exact ones as the precision grows
@thm C109_exact_trajectory FloatExact.trajectory_exact -- the float program run on exact arithmetic is the exact model
@thm C109_exact_is_accurate FloatGlobal.exact_accurate
@thm C109_ieee_is_accurate FloatIEEE.ieee_accurate
@thm C109_coarser FloatGlobal.accurate_le
Example C109_nonvacuous : usable binary64 /\ usable binary128 /\ libm_ok binary64 (nearest_libm binary64) /\ uF binary64 = / 562949953421312 /\
  book "Kerr" [9/10] (kn_cov (9/10) 0) (fun r th => 0 < r /\ 0 < DeltaS r (9/10) 0 /\ sin th <> 0) /\ (0 < 10 /\ 0 < DeltaS 10 (9/10) 0 /\ sin (PI / 2) <> 0).
Proof.
  split; [exact binary64_usable|]. split; [exact binary128_usable|]. split; [apply nearest_libm_ok, binary64_usable|]. split.
  { unfold uF, binary64, prec. cbn -[IZR]. f_equal. }
  split; [constructor|]. unfold DeltaS. rewrite sin_PI2. repeat split; lra.
Qed.
Example C109_nonvacuous_exact : forall pos mom kw, k_order kw = 2%nat -> (0 < k_steps kw)%nat ->
  resolve_metric (MCallable (fun _ => Ok demo)) = Ok (fun _ => Ok demo) /\ well_formed demo /\ rational_metric demo /\
  exists geo, mk_geodesic (MCallable (fun _ => Ok demo)) [] pos mom true false kw = Ok geo /\
  0 < discriminant demo (geo_position geo) (fst (fst mom)) (snd (fst mom)) (snd mom) true.
Proof.
  intros pos mom kw H1 H2. split; [reflexivity|]. split; [apply demo_symmetries|]. split.
  { intros i j Hi Hj. destruct i as [|[|[|[|i]]]]; [| | | |lia]; (destruct j as [|[|[|[|j]]]]; [reflexivity..|lia]). }
  destruct (demo_geodesic pos mom false kw H1 H2) as [geo E]. exists geo. split; [exact E|]. destruct mom as [[u1 u2] u3]. cbn [fst snd].
  unfold discriminant, metric_meaning, demo, zeroE, Ec, mnth. cbv zeta. cbn [q4map q4nth c0 c1 c2 c3 meaning b2R]. rewrite !powerRZ2.
  assert (S1 : 0 <= u1 * u1) by nra. assert (S2 : 0 <= (c1 (geo_position geo) * u2) * (c1 (geo_position geo) * u2)) by nra. assert (S3 : 0 <= (cos (c2 (geo_position geo)) * u3) * (cos (c2 (geo_position geo)) * u3)) by nra.
  cbn [pow]. nra.
Qed.
Example C109_nonvacuous_geodesic : forall T, 0 < T -> well_formed lin_metric /\ symmetric_program lin_metric /\ geodesic_on lin_metric lin_q lin_p T
  /\ exists f, integrator_of 4 (metricfun_of lin_metric) 1 = Ok f.
Proof. intros T HT. split; [exact lin_wf|]. split; [exact lin_sym|]. split; [apply lin_geodesic_on; exact HT|]. eexists. reflexivity. Qed.

(** ---- C110: evaluating programs, derivatives and metrics in floating point ---- *)
@thm C110_program FloatTraj.program_rounded -- a program evaluated near X is within C u of its exact value at X
@thm C110_dual FloatMain.dual_derivative -- DualNumber: value and derivative
@thm C110_metric FloatTraj.metric_rounded
@thm C110_jacobian FloatTraj.jacobian_rounded -- _jacobian_g: the true partial derivatives of the metric
@thm C110_momentum FloatTraj.P4_rounded -- _P
@thm C110_exact_program FloatExact.run_exactA
@thm C110_exact_jacobian FloatExact.jacobian_exact
@thm C110_exact_momentum FloatExact.P4_exact
@thm C110_named FloatTraj.builtin_rational
Example C110_nonvacuous : let e := EDiv (ESin (EVar 0)) (EAdd (EPow (EVar 1) 2) (EConst 1)) in below 2 e = true /\ defined_at (fun _ => 1) e /\
  metric_defined schE (q4nth (mk4 0 4 (PI / 2) 0)) /\ well_formed schE /\ symmetric_program schE /\ 0 < discriminant schE (mk4 0 4 (PI / 2) 0) 1 0 0 false /\
  exists P, P4 schE (mk4 0 4 (PI / 2) 0) 1 0 0 false = Ok P.
Proof.
  intros e. split; [reflexivity|]. split; [simpl; split; [exact Logic.I|]; split; [split; [split; [exact Logic.I|left; lia]|exact Logic.I]|]; lra|].
  assert (S1 : sin (PI / 2) <> 0) by (rewrite sin_PI2; lra).
  split; [apply sch_defined; lra || assumption|]. split; [apply is_kn_sch|]. split; [apply is_kn_sch|]. split.
  - unfold discriminant. rewrite sch_meaning by (lra || assumption). assert (X := kn_discr_strict 0 0 4 (PI / 2) 1 0 0 false ltac:(lra) ltac:(lra) ltac:(unfold DeltaS; lra) S1 ltac:(right; left; lra)).
    unfold discr in X. cbv zeta. cbn [pow]. rewrite !Rmult_1_r in *. rewrite !Rmult_0_l, !Rmult_0_r in *. exact X.
  - destruct (P4_sch 0 4 (PI / 2) 0 1 0 0 false ltac:(lra) S1) as (guu & P & _ & E & _). exists P. exact E.
Qed.

(** ---- C111: RK4naive in floating point ---- *)
@thm C111_rounded FloatRK2.rk4_rounded -- after k steps of size h (forwards or backwards) in arithmetic of unit roundoff u, from inputs with error e0, time and solution are within K (e0 + |h|^4 + u/|h|) of the true ones
@thm C111_close_to_exact FloatRK2.rk4_float -- whenever the exact run evaluates the right-hand side where it is defined, the floating-point run succeeds and stays within C u of it
@thm C111_exact FloatRK2.rk4_exact -- the float program on exact arithmetic is the exact model
@thm C111_length FloatRK2.steps_length -- the array keeps its length
Theorem C111_ieee n es (y : R -> Y) t0 T : system n es -> T <> 0 ->
  (forall t, Rmin t0 (t0 + T) <= t <= Rmax t0 (t0 + T) -> defined_for n es t (y t) /\ solves_near n (program_rhs es) y t) ->
  exists K r, 0 <= K /\ 0 < r /\ forall Fm L, usable Fm -> libm_ok Fm L -> forall h N e0 t0' y0 tb, 0 < h * T -> Rabs h <= r -> INR N * Rabs h <= Rabs T ->
  Rabs (t0' - t0) <= e0 -> (forall i, (i < n)%nat -> Rabs (nth i y0 0 - y t0 i) <= e0) -> e0 + uF Fm / Rabs h <= r ->
  forall k, (k <= N)%nat -> exists s, rk4_stepsA (ieee Fm L) n es k (rk4_initA t0' y0 tb h) = Ok s /\
    Rabs (rf_t s - (t0 + INR k * h)) <= K * (e0 + Rabs h ^ 4 + uF Fm / Rabs h) /\
    forall i, (i < n)%nat -> Rabs (nth i (rf_y s) 0 - y (t0 + INR k * h) i) <= K * (e0 + Rabs h ^ 4 + uF Fm / Rabs h).
Proof.
  intros Hs HT H. destruct (FloatRK2.rk4_rounded n es y t0 T Hs HT H) as (K & r & HK & Hr & Q). exists K, r. split; [exact HK|]. split; [exact Hr|]. intros Fm L HU HL.
  apply Q; [unfold uF; apply Rlt_le, Flocq.Core.Raux.bpow_gt_0|apply ieee_accurate; assumption].
Qed.
Print Assumptions C111_ieee.
Example C111_nonvacuous : system 1 riccati /\ 1 / 2 <> 0 /\ (forall t, Rmin 0 (0 + 1 / 2) <= t <= Rmax 0 (0 + 1 / 2) -> defined_for 1 riccati t ((fun t _ => / (1 - t * t)) t) /\ solves_near 1 (program_rhs riccati) (fun t _ => / (1 - t * t)) t) /\
  forall N tb k, (k < N)%nat -> let s := rk4_steps k (rk4_init (program_rhs riccati) 0 (fun _ => 1) tb (1 / 8)) in def_rk4 1 riccati (1 / 8) (rk_t s) (rk_y s).
Proof.
  split; [intros i Hi; reflexivity|]. split; [lra|]. split.
  - intros t. rewrite Rmin_left, Rmax_right by lra. intros Ht. destruct (riccati_solution t ltac:(lra)) as [A B]. split; assumption.
  - intros N tb k _ s. repeat split.
Qed.
