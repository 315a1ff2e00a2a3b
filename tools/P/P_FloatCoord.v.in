(** Properties C113, C114: the coordinate conversions in floating point.
   [accurate2 u B]: the arithmetic B (its +, -, *, /, powers, sqrt, sin, cos, hypot, arctan2, arccos) has unit roundoff u; [exact2]: exact arithmetic.
   [cart_to_sphB B], [cart_to_blB B], [sph_to_cartB B], [bl_to_cartB B]: the conversions of positions run in B; [.._allB]: those of positions and velocities; [to_sph], [from_sph], [to_bl], [from_bl]: the same on vectors.
   Without B (CoordModel.v): the exact conversions, to which properties C19 to C25 apply.
   [close e v l]: |v - l| <= e; [close4], [close3]: in every component; [close_sph]: the same, the last component being an angle compared up to a full turn.
   [eventually_rounded K p v al claim]: there are r > 0 and C such that claim C u B fp fv fal holds for every u < r, every B of unit roundoff u and all float inputs fp, fv, fal within K u of p, v, al.
   [off_z_axis p]: x or y is not 0; [off_cut p]: x > 0 or y is not 0; [bl_r]: the exact Boyer-Lindquist radius. *)
From Coq Require Import Reals List ZArith Lra Lia Bool.
From Flocq Require Import Core.
From Verif Require Import Base Calc DualModel GeoUtilsModel CoordModel CoordProofs CoordProofs4 FloatModel FloatIEEE FloatTrack FloatCoordModel FloatCoord FloatCoordMain FloatCoordExact FloatCoordIEEE.
Import ListNotations.
Open Scope R_scope.

(** ---- C113 ---- *)
@thm C113_cart_to_sph FloatCoordMain.cart_to_sph_rounded -- Cartesian to spherical, positions and velocities, off the axis
@thm C113_cart_to_bl FloatCoordMain.cart_to_bl_rounded -- Cartesian to Boyer-Lindquist, positions, off the axis and off the disc of radius alpha
@thm C113_cart_to_bl_vel FloatCoordMain.cart_to_bl_vel_rounded -- the same with velocities (the code divides by x)
@thm C113_sph_to_cart FloatCoordMain.sph_to_cart_rounded -- spherical to Cartesian, everywhere
@thm C113_bl_to_cart FloatCoordMain.bl_to_cart_rounded -- Boyer-Lindquist to Cartesian
@thm C113_cart_sph_cart FloatCoordMain.cart_sph_cart_rounded -- round trip Cartesian, spherical, Cartesian in floating point
@thm C113_cart_bl_cart FloatCoordMain.cart_bl_cart_rounded -- round trip Cartesian, Boyer-Lindquist, Cartesian
@thm C113_sph_cart_sph FloatCoordMain.sph_cart_sph_rounded -- round trip spherical, Cartesian, spherical
@thm C113_bl_cart_bl FloatCoordMain.bl_cart_bl_rounded -- round trip Boyer-Lindquist, Cartesian, Boyer-Lindquist
@thm C113_ieee FloatCoordIEEE.ieee2_accurate -- IEEE formats with a 4-ulp libm are such arithmetics
@thm C113_ieee_exists FloatCoordIEEE.nearest_libm2_ok -- such a libm exists
@thm C113_exact FloatCoordExact.exact2_accurate -- exact arithmetic has unit roundoff 0, and run in it the programs are the exact conversions:
@thm C113_exact_to_sph FloatCoordExact.to_sph_exact
@thm C113_exact_to_sph_vel FloatCoordExact.to_sph_vel_exact
@thm C113_exact_from_sph FloatCoordExact.from_sph_exact
@thm C113_exact_from_sph_vel FloatCoordExact.from_sph_vel_exact
@thm C113_exact_to_bl FloatCoordExact.to_bl_exact
@thm C113_exact_to_bl_vel FloatCoordExact.to_bl_vel_exact
@thm C113_exact_from_bl FloatCoordExact.from_bl_exact
@thm C113_exact_from_bl_vel FloatCoordExact.from_bl_vel_exact
(** the hypotheses hold at the point (x, y, z) = (-3, 0, 4), on the cut of phi, with spin 1/2, and at the spherical point (5, pi/3, pi); binary64 has unit roundoff 2^-49 *)
Example C113_nonvacuous : let p := mkQ4 0 (-3) 0 4 in let s := mkQ4 0 5 (PI / 3) PI in off_z_axis p /\ ~ off_cut p /\ c1 p <> 0 /\ 0 < bl_r (c1 p) (c2 p) (c3 p) (1 / 2) /\
  regular_sph s /\ cos (c3 s) <> 0 /\ accurate2 (uF binary64) (ieee2 binary64 (nearest_libm binary64) (nearest_libm2 binary64)) /\ uF binary64 = bpow radix2 (-49).
Proof.
  cbv zeta. unfold off_z_axis, off_cut, regular_sph. cbn [c0 c1 c2 c3]. assert (P := PI_RGT_0). split; [left; lra|]. split; [intros [H|H]; lra|]. split; [lra|]. split.
  { assert (N := bl_r_nonneg (-3) 0 4 (1 / 2)). destruct N as [N|N]; [exact N|]. symmetry in N. apply bl_r_zero_iff in N. lra. }
  split; [lra|]. split; [rewrite cos_PI; lra|]. split; [apply ieee2_accurate; [exact binary64_usable|apply nearest_libm_ok, binary64_usable|apply nearest_libm2_ok, binary64_usable]|]. reflexivity.
Qed.

(** ---- C114 ---- *)
@thm C114_axis_refuted FloatCoordIEEE.axis_nan -- in binary64 the conversion of the point x = y = 0, z = 0.2 with alpha = 0.9 gives theta = nan: z / r is rounded to 1 + 2^-52
@thm C114_axis_exact FloatCoordIEEE.axis_exact -- although the exact conversion is defined on the whole axis but the origin
@thm C114_point_z FloatCoordIEEE.d02_nearest -- d02 is the double 0.2
@thm C114_point_alpha FloatCoordIEEE.d09_nearest -- d09 is the double 0.9
Example C114_nonvacuous : squares binary64 (nearest_libm binary64) /\ d02 <> 0.
Proof. split; [apply nearest_squares, binary64_usable|]. unfold d02. apply Rgt_not_eq, Rmult_lt_0_compat; [lra|apply bpow_gt_0]. Qed.
