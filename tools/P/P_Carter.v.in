(** Property C112: constants of motion along the orbits Geodesic computes around the built-in black holes.
   [named_hole s prms g a]: Geodesic("s", prms, ..) uses the metric program g, of a black hole of spin a. [book s prms cov out]: its textbook metric cov and its exterior out.
   [geodesic_on g q p T]: on [0, T] g evaluates without error along q and (q, p) obeys Hamilton's equations of g. [Ham g q p] = 1/2 g^ij(q) p_i p_j.
   [carter a q p m]: Carter's quantity p_theta^2 + (a sin(theta) p_t + p_phi / sin(theta))^2 - a^2 cos(theta)^2 m, where m = g^ij p_i p_j (-1 for a particle, 0 for light).
   [Lx q p], [Ly q p]: the x and y components of the angular momentum (the z component is p_phi); [ray q]: the unit vector from the centre towards q.
   [geodesicA A ..]: what Geodesic computes in the arithmetic A; [accurate u A]: A has unit roundoff u (u = 0: exact); it returns the initial momentum and the rows (position, momentum).
   [on_shell_future guu P u1 u2 u3 tl]: P has the spatial components u1 u2 u3, norm -1 (tl) or 0 in the inverse metric guu, and is future directed.
   [quantity_of e q p]: the number the program e computes from position and momentum; [conserved e q p T]: it is constant along the motion. *)
From Coq Require Import String Ascii Reals List ZArith Lra Lia Bool.
From Coquelicot Require Import Coquelicot.
From Verif Require Import Base Calc DualModel DualSpec DualProofs DualDiff GeoUtilsModel GeoUtilsSpec GeoUtilsProofs GeodesicModel GeodesicProofs
  FantasyModel FantasyProofs FantasyProofs2 FantasyProofs3 FantasyHam FantasySymp ProgCont WordSeries WordOrder FantasyOrder FantasyOrder2 FantasyOrder3 FantasyOrder4 FantasyGlobal FantasyGlobal2 FantasyGlobal3
  FantasyShell FantasyCyclic FantasyCircular PicardProg FloatModel FloatExact FloatTrack FloatGlobal FloatTraj FloatMain FantasyCarter FloatCarter FloatPlane.
Import ListNotations.
Open Scope R_scope.

(** ---- C112 ---- *)
@thm C112_constants_of_motion FloatCarter.constants_of_motion -- for every named black hole, exterior point and momentum: energy, axial angular momentum, mass and Carter's constant of every row computed with step h in arithmetic of unit roundoff u are within K (h^n + u/h) of their initial values
@thm C112_plane_of_motion FloatPlane.plane_of_motion -- without spin: so are all components of the angular momentum, and every row lies in the initial orbital plane up to that error
@thm C112_carter_exact FantasyCarter.carter_exact -- along the exact motion Carter's quantity is constant
@thm C112_angular_momentum_exact FloatPlane.L_exact -- and without spin the angular momentum vector
@thm C112_carter_drift FantasyCarter.carter_drift -- exact arithmetic: calculate_trajectory along any motion
@thm C112_any_constant FantasyCarter.conserved_drift -- any metric callable and any constant of its motion that is computed by a program
@thm C112_any_constant_rounded FantasyCarter.conserved_rounded -- the same in floating point
Example C112_nonvacuous : named_hole "Kerr" [9/10] (kerrE (9/10)) (9/10) /\
  book "Kerr" [9/10] (kn_cov (9/10) 0) (fun r th => 0 < r /\ 0 < DeltaS r (9/10) 0 /\ sin th <> 0) /\ (0 < 10 /\ 0 < DeltaS 10 (9/10) 0 /\ sin (PI / 3) <> 0) /\
  named_hole "Schwarzschild" [] schE 0 /\ carter (9/10) (mkQ4 0 10 (PI / 2) 0) (mkQ4 (-1) 0 1 2) (-1) = 1 + (11/10) * (11/10).
Proof.
  split; [constructor|]. split; [constructor|]. split.
  { assert (S : 0 < sin (PI / 3)) by (apply sin_gt_0; assert (H := PI_RGT_0); lra). unfold DeltaS. split; [lra|]. split; [lra|apply Rgt_not_eq; exact S]. }
  split; [constructor|]. unfold carter. cbn [c0 c2 c3]. rewrite sin_PI2, cos_PI2. field.
Qed.
(** the hypotheses of the theorems about any constant: the energy of the metric diag(-1, x_1, 1, 1) *)
Example C112_nonvacuous_any : forall T, well_formed lin_metric /\ symmetric_program lin_metric /\ geodesic_on lin_metric lin3_q lin3_p T /\ below 8 (EVar 4) = true /\
  conserved (EVar 4) lin3_q lin3_p T /\ quantity_of (EVar 4) (lin3_q 0) (lin3_p 0) = 3.
Proof.
  intros T. split; [exact lin_wf|]. split; [exact lin_sym|]. split; [apply lin3_geodesic_on|]. split; [reflexivity|]. split; [|reflexivity]. intros t Ht. reflexivity.
Qed.
