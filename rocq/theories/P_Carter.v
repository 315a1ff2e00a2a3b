(* generated from tools/P/P_Carter.v.in by tools/genp.py: statements only, proofs are references *)
(** Property C112: constants of motion along the orbits Geodesic computes around the built-in black holes.
   [named_hole s prms g a]: Geodesic("s", prms, ..) uses the metric program g, of a black hole of spin a. [book s prms cov out]: its textbook metric cov and its exterior out.
   [geodesic_on g q p T]: on [0, T] g evaluates without error along q and (q, p) obeys Hamilton's equations of g. [Ham g q p] = 1/2 g^ij(q) p_i p_j.
   [carter a q p m]: Carter's quantity p_theta^2 + (a sin(theta) p_t + p_phi / sin(theta))^2 - a^2 cos(theta)^2 m, where m = g^ij p_i p_j (-1 for a particle, 0 for light).
   [Lx q p], [Ly q p]: the x and y components of the angular momentum (the z component is p_phi); [ray q]: the unit vector from the centre towards q.
   [geodesicA A ..]: what Geodesic computes in the arithmetic A; [accurate u A]: A has unit roundoff u (u = 0: exact); it returns the initial momentum and the rows (position, momentum).
   [on_shell_future guu P u1 u2 u3 tl]: P has the spatial components u1 u2 u3, norm -1 (tl) or 0 in the inverse metric guu, and is future directed.
   [quantity_of e q p]: the number the program e computes from position and momentum; [conserved e q p T]: it is constant along the motion. *)
From Coq Require Import String Ascii Reals List ZArith Lra Lia Bool.
From Coquelicot Require Import Coquelicot.
From Verif Require Import Base Calc DualModel DualSpec DualProofs DualDiff GeoUtilsModel GeoUtilsSpec GeoUtilsProofs GeodesicModel GeodesicProofs
  FantasyModel FantasyProofs FantasyProofs2 FantasyProofs3 FantasyHam FantasySymp ProgCont WordSeries WordOrder FantasyOrder FantasyOrder2 FantasyOrder3 FantasyOrder4 FantasyGlobal FantasyGlobal2 FantasyGlobal3
  FantasyShell FantasyCyclic FantasyCircular PicardProg FloatModel FloatExact FloatTrack FloatGlobal FloatTraj FloatMain FantasyCarter FloatCarter FloatPlane.
Import ListNotations.
Open Scope R_scope.

(** ---- C112 ---- *)
(** for every named black hole, exterior point and momentum: energy, axial angular momentum, mass and Carter's constant of every row computed with step h in arithmetic of unit roundoff u are within K (h^n + u/h) of their initial values *)
Theorem C112_constants_of_motion : forall s prms g a cov out x1 x2 x3 u1 u2 u3 tl order w n,
  named_hole s prms g a -> book s prms cov out -> out x1 x2 -> tl = true \/ u1 <> 0 \/ u2 <> 0 \/ u3 <> 0 ->
  In order [2; 4; 6; 8]%nat -> n = 2%nat \/ (order = 4 /\ n = 4)%nat ->
  exists guu E T K r, inverse_of guu (cov x1 x2) /\ on_shell_future guu (mkQ4 (- E) u1 u2 u3) u1 u2 u3 tl /\ 0 < T /\ 0 <= K /\ 0 < r /\
  forall u A, 0 <= u -> accurate u A -> forall h N, 0 < h <= r -> u / h <= r -> (0 < N)%nat -> INR N * h <= T ->
  exists P' rows, geodesicA A (MName s) prms (x1, x2, x3) (u1, u2, u3) tl false N h order w = Ok (P', rows) /\ length rows = N /\
  forall q p, In (q, p) rows -> let B := K * (h ^ n + u / h) in
  Rabs (c0 p + E) <= B /\ Rabs (c3 p - u3) <= B /\ Rabs (2 * Ham g q p + b2R tl) <= B /\
  Rabs (carter a q p (- b2R tl) - carter a (mkQ4 0 x1 x2 x3) (mkQ4 (- E) u1 u2 u3) (- b2R tl)) <= B.
Proof. exact FloatCarter.constants_of_motion. Qed.
Print Assumptions C112_constants_of_motion.

(** without spin: so are all components of the angular momentum, and every row lies in the initial orbital plane up to that error *)
Theorem C112_plane_of_motion : forall s prms g cov out x1 x2 x3 u1 u2 u3 tl order w n,
  named_hole s prms g 0 -> book s prms cov out -> out x1 x2 -> tl = true \/ u1 <> 0 \/ u2 <> 0 \/ u3 <> 0 ->
  In order [2; 4; 6; 8]%nat -> n = 2%nat \/ (order = 4 /\ n = 4)%nat ->
  exists T K r, 0 < T /\ 0 <= K /\ 0 < r /\
  forall u A, 0 <= u -> accurate u A -> forall h N, 0 < h <= r -> u / h <= r -> (0 < N)%nat -> INR N * h <= T ->
  exists P' rows, geodesicA A (MName s) prms (x1, x2, x3) (u1, u2, u3) tl false N h order w = Ok (P', rows) /\ length rows = N /\
  forall q p, In (q, p) rows -> let B := K * (h ^ n + u / h) in let l1 := Lx (mkQ4 0 x1 x2 x3) (mkQ4 0 u1 u2 u3) in let l2 := Ly (mkQ4 0 x1 x2 x3) (mkQ4 0 u1 u2 u3) in
  Rabs (Lx q p - l1) <= B /\ Rabs (Ly q p - l2) <= B /\ Rabs (c3 p - u3) <= B /\
  let '(x, y, z) := ray q in Rabs (x * l1 + y * l2 + z * u3) <= B.
Proof. exact FloatPlane.plane_of_motion. Qed.
Print Assumptions C112_plane_of_motion.

(** along the exact motion Carter's quantity is constant *)
Theorem C112_carter_exact : forall s prms g a q p T,
  named_hole s prms g a -> geodesic_on g q p T ->
  forall t, 0 <= t <= T -> carter a (q t) (p t) (2 * Ham g (q t) (p t)) = carter a (q 0) (p 0) (2 * Ham g (q 0) (p 0)).
Proof. exact FantasyCarter.carter_exact. Qed.
Print Assumptions C112_carter_exact.

(** and without spin the angular momentum vector *)
Theorem C112_angular_momentum_exact : forall s prms g q p T,
  named_hole s prms g 0 -> geodesic_on g q p T -> forall t, 0 <= t <= T ->
  Lx (q t) (p t) = Lx (q 0) (p 0) /\ Ly (q t) (p t) = Ly (q 0) (p 0) /\ c3 (p t) = c3 (p 0).
Proof. exact FloatPlane.L_exact. Qed.
Print Assumptions C112_angular_momentum_exact.

(** exact arithmetic: calculate_trajectory along any motion *)
Theorem C112_carter_drift : forall s prms g a order w f n (q p : R -> V4) T,
  named_hole s prms g a ->
  integrator_of order (metricfun_of g) w = Ok f -> n = 2%nat \/ (order = 4 /\ n = 4)%nat -> 0 < T -> geodesic_on g q p T ->
  exists C N0, (0 < N0)%nat /\ forall N tl rtol atol suppress, (N0 <= N)%nat ->
  exists rows, calculate_trajectory g (q 0) (p 0) tl false (mkkw N (T / INR N) rtol atol order w suppress) = Ok (seq 0 N, rows) /\ length rows = N /\
  forall row, In row rows -> Rabs (carter a (fst row) (snd row) (2 * Ham g (fst row) (snd row)) - carter a (q 0) (p 0) (2 * Ham g (q 0) (p 0))) <= C * (T / INR N) ^ n.
Proof. exact FantasyCarter.carter_drift. Qed.
Print Assumptions C112_carter_drift.

(** any metric callable and any constant of its motion that is computed by a program *)
Theorem C112_any_constant : forall order g w f n e (q p : R -> V4) T,
  integrator_of order (metricfun_of g) w = Ok f -> n = 2%nat \/ (order = 4 /\ n = 4)%nat ->
  well_formed g -> symmetric_program g -> 0 < T -> geodesic_on g q p T ->
  below 8 e = true -> (forall t, 0 <= t <= T -> defined_at (pt8 (q t) (p t)) e) -> conserved e q p T ->
  exists C N0, (0 < N0)%nat /\ forall N tl rtol atol suppress, (N0 <= N)%nat ->
  exists rows, calculate_trajectory g (q 0) (p 0) tl false (mkkw N (T / INR N) rtol atol order w suppress) = Ok (seq 0 N, rows) /\ length rows = N /\
  forall row, In row rows -> Rabs (quantity_of e (fst row) (snd row) - quantity_of e (q 0) (p 0)) <= C * (T / INR N) ^ n.
Proof. exact FantasyCarter.conserved_drift. Qed.
Print Assumptions C112_any_constant.

(** the same in floating point *)
Theorem C112_any_constant_rounded : forall order g w f n e (q p : R -> V4) T,
  integrator_of order (metricfun_of g) w = Ok f -> n = 2%nat \/ (order = 4 /\ n = 4)%nat ->
  well_formed g -> symmetric_program g -> 0 < T -> geodesic_on g q p T ->
  below 8 e = true -> (forall t, 0 <= t <= T -> defined_at (pt8 (q t) (p t)) e) -> conserved e q p T ->
  exists K r, 0 <= K /\ 0 < r /\ forall u A, 0 <= u -> accurate u A -> forall h N e0 q0 p0, 0 < h <= r -> (0 < N)%nat -> INR N * h <= T ->
  (forall i, (i < 4)%nat -> Rabs (q4nth q0 i - q4nth (q 0) i) <= e0 /\ Rabs (q4nth p0 i - q4nth (p 0) i) <= e0) -> e0 + u / h <= r ->
  exists rows, trajectoryA A g q0 p0 false N h order w = Ok rows /\ length rows = N /\
  forall row, In row rows -> Rabs (quantity_of e (fst row) (snd row) - quantity_of e (q 0) (p 0)) <= K * (e0 + h ^ n + u / h).
Proof. exact FantasyCarter.conserved_rounded. Qed.
Print Assumptions C112_any_constant_rounded.

Example C112_nonvacuous : named_hole "Kerr" [9/10] (kerrE (9/10)) (9/10) /\
  book "Kerr" [9/10] (kn_cov (9/10) 0) (fun r th => 0 < r /\ 0 < DeltaS r (9/10) 0 /\ sin th <> 0) /\ (0 < 10 /\ 0 < DeltaS 10 (9/10) 0 /\ sin (PI / 3) <> 0) /\
  named_hole "Schwarzschild" [] schE 0 /\ carter (9/10) (mkQ4 0 10 (PI / 2) 0) (mkQ4 (-1) 0 1 2) (-1) = 1 + (11/10) * (11/10).
Proof.
  split; [constructor|]. split; [constructor|]. split.
  { assert (S : 0 < sin (PI / 3)) by (apply sin_gt_0; assert (H := PI_RGT_0); lra). unfold DeltaS. split; [lra|]. split; [lra|apply Rgt_not_eq; exact S]. }
  split; [constructor|]. unfold carter. cbn [c0 c2 c3]. rewrite sin_PI2, cos_PI2. field.
Qed.
(** the hypotheses of the theorems about any constant: the energy of the metric diag(-1, x_1, 1, 1) *)
Example C112_nonvacuous_any : forall T, well_formed lin_metric /\ symmetric_program lin_metric /\ geodesic_on lin_metric lin3_q lin3_p T /\ below 8 (EVar 4) = true /\
  conserved (EVar 4) lin3_q lin3_p T /\ quantity_of (EVar 4) (lin3_q 0) (lin3_p 0) = 3.
Proof.
  intros T. split; [exact lin_wf|]. split; [exact lin_sym|]. split; [apply lin3_geodesic_on|]. split; [reflexivity|]. split; [|reflexivity]. intros t Ht. reflexivity.
Qed.
