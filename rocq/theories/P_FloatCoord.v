(* generated from tools/P/P_FloatCoord.v.in by tools/genp.py: statements only, proofs are references *)
(** Properties C113, C114: the coordinate conversions in floating point.
   [accurate2 u B]: the arithmetic B (its +, -, *, /, powers, sqrt, sin, cos, hypot, arctan2, arccos) has unit roundoff u; [exact2]: exact arithmetic.
   [cart_to_sphB B], [cart_to_blB B], [sph_to_cartB B], [bl_to_cartB B]: the conversions of positions run in B; [.._allB]: those of positions and velocities; [to_sph], [from_sph], [to_bl], [from_bl]: the same on vectors.
   Without B (CoordModel.v): the exact conversions, to which properties C19 to C25 apply.
   [close e v l]: |v - l| <= e; [close4], [close3]: in every component; [close_sph]: the same, the last component being an angle compared up to a full turn.
   [eventually_rounded K p v al claim]: there are r > 0 and C such that claim C u B fp fv fal holds for every u < r, every B of unit roundoff u and all float inputs fp, fv, fal within K u of p, v, al.
   [off_z_axis p]: x or y is not 0; [off_cut p]: x > 0 or y is not 0; [bl_r]: the exact Boyer-Lindquist radius. *)
From Coq Require Import Reals List ZArith Lra Lia Bool.
From Flocq Require Import Core.
From Verif Require Import Base Calc DualModel GeoUtilsModel CoordModel CoordProofs CoordProofs4 FloatModel FloatIEEE FloatTrack FloatCoordModel FloatCoord FloatCoordMain FloatCoordExact FloatCoordIEEE.
Import ListNotations.
Open Scope R_scope.

(** ---- C113 ---- *)
(** Cartesian to spherical, positions and velocities, off the axis *)
Theorem C113_cart_to_sph : forall K p v al,
  0 <= K -> off_z_axis p -> exists w', cart_to_sph_vel (c1 p) (c2 p) (c3 p) (v1 v) (v2 v) (v3 v) = Ok w' /\
  eventually_rounded K p v al (fun C u B fp fv _ => exists s w,
  cart_to_sphB B (c0 fp) (c1 fp) (c2 fp) (c3 fp) = Ok s /\
  cart_to_sph_allB B (c0 fp) (c1 fp) (c2 fp) (c3 fp) (v1 fv) (v2 fv) (v3 fv) = Ok (s, w) /\
  close_sph (C * u) s (cart_to_sph (c0 p) (c1 p) (c2 p) (c3 p)) /\ (off_cut p -> close4 (C * u) s (cart_to_sph (c0 p) (c1 p) (c2 p) (c3 p))) /\ close3 (C * u) w w').
Proof. exact FloatCoordMain.cart_to_sph_rounded. Qed.
Print Assumptions C113_cart_to_sph.

(** Cartesian to Boyer-Lindquist, positions, off the axis and off the disc of radius alpha *)
Theorem C113_cart_to_bl : forall K p v al,
  0 <= K -> off_z_axis p -> 0 < bl_r (c1 p) (c2 p) (c3 p) al -> exists s', cart_to_bl (c0 p) (c1 p) (c2 p) (c3 p) al = Ok s' /\
  eventually_rounded K p v al (fun C u B fp _ fal => exists s,
  cart_to_blB B (c0 fp) (c1 fp) (c2 fp) (c3 fp) fal = Ok s /\ close_sph (C * u) s s' /\ (off_cut p -> close4 (C * u) s s')).
Proof. exact FloatCoordMain.cart_to_bl_rounded. Qed.
Print Assumptions C113_cart_to_bl.

(** the same with velocities (the code divides by x) *)
Theorem C113_cart_to_bl_vel : forall K p v al,
  0 <= K -> c1 p <> 0 -> 0 < bl_r (c1 p) (c2 p) (c3 p) al -> exists s' w', cart_to_bl (c0 p) (c1 p) (c2 p) (c3 p) al = Ok s' /\
  cart_to_bl_vel (c1 p) (c2 p) (c3 p) al (v1 v) (v2 v) (v3 v) = Ok w' /\
  eventually_rounded K p v al (fun C u B fp fv fal => exists s w,
  cart_to_bl_allB B (c0 fp) (c1 fp) (c2 fp) (c3 fp) fal (v1 fv) (v2 fv) (v3 fv) = Ok (s, w) /\ close_sph (C * u) s s' /\ (off_cut p -> close4 (C * u) s s') /\ close3 (C * u) w w').
Proof. exact FloatCoordMain.cart_to_bl_vel_rounded. Qed.
Print Assumptions C113_cart_to_bl_vel.

(** spherical to Cartesian, everywhere *)
Theorem C113_sph_to_cart : forall K p v al,
  0 <= K ->
  eventually_rounded K p v al (fun C u B fp fv _ => exists s w,
  sph_to_cartB B (c0 fp) (c1 fp) (c2 fp) (c3 fp) = Ok s /\
  sph_to_cart_allB B (c0 fp) (c1 fp) (c2 fp) (c3 fp) (v1 fv) (v2 fv) (v3 fv) = Ok (s, w) /\
  close4 (C * u) s (sph_to_cart (c0 p) (c1 p) (c2 p) (c3 p)) /\ close3 (C * u) w (sph_to_cart_vel (c1 p) (c2 p) (c3 p) (v1 v) (v2 v) (v3 v))).
Proof. exact FloatCoordMain.sph_to_cart_rounded. Qed.
Print Assumptions C113_sph_to_cart.

(** Boyer-Lindquist to Cartesian *)
Theorem C113_bl_to_cart : forall K p v al,
  0 <= K -> c1 p <> 0 \/ al <> 0 -> exists w', bl_to_cart_vel (c1 p) (c2 p) (c3 p) al (v1 v) (v2 v) (v3 v) = Ok w' /\
  eventually_rounded K p v al (fun C u B fp fv fal => exists s w,
  bl_to_cartB B (c0 fp) (c1 fp) (c2 fp) (c3 fp) fal = Ok s /\
  bl_to_cart_allB B (c0 fp) (c1 fp) (c2 fp) (c3 fp) fal (v1 fv) (v2 fv) (v3 fv) = Ok (s, w) /\
  close4 (C * u) s (bl_to_cart (c0 p) (c1 p) (c2 p) (c3 p) al) /\ close3 (C * u) w w').
Proof. exact FloatCoordMain.bl_to_cart_rounded. Qed.
Print Assumptions C113_bl_to_cart.

(** round trip Cartesian, spherical, Cartesian in floating point *)
Theorem C113_cart_sph_cart : forall K p v al,
  0 <= K -> off_z_axis p ->
  eventually_rounded K p v al (fun C u B fp fv fal => exists s w q x, to_sph B fp fv fal = Ok (s, w) /\ from_sph B s w fal = Ok (q, x) /\ close4 (C * u) q p /\ close3 (C * u) x v).
Proof. exact FloatCoordMain.cart_sph_cart_rounded. Qed.
Print Assumptions C113_cart_sph_cart.

(** round trip Cartesian, Boyer-Lindquist, Cartesian *)
Theorem C113_cart_bl_cart : forall K p v al,
  0 <= K -> c1 p <> 0 -> 0 < bl_r (c1 p) (c2 p) (c3 p) al ->
  eventually_rounded K p v al (fun C u B fp fv fal => exists s w q x, to_bl B fp fv fal = Ok (s, w) /\ from_bl B s w fal = Ok (q, x) /\ close4 (C * u) q p /\ close3 (C * u) x v).
Proof. exact FloatCoordMain.cart_bl_cart_rounded. Qed.
Print Assumptions C113_cart_bl_cart.

(** round trip spherical, Cartesian, spherical *)
Theorem C113_sph_cart_sph : forall K p v al,
  0 <= K -> regular_sph p ->
  eventually_rounded K p v al (fun C u B fp fv fal => exists s w q x, from_sph B fp fv fal = Ok (s, w) /\ to_sph B s w fal = Ok (q, x) /\
  close_sph (C * u) q p /\ (c3 p < PI -> close4 (C * u) q p) /\ close3 (C * u) x v).
Proof. exact FloatCoordMain.sph_cart_sph_rounded. Qed.
Print Assumptions C113_sph_cart_sph.

(** round trip Boyer-Lindquist, Cartesian, Boyer-Lindquist *)
Theorem C113_bl_cart_bl : forall K p v al,
  0 <= K -> regular_sph p -> cos (c3 p) <> 0 ->
  eventually_rounded K p v al (fun C u B fp fv fal => exists s w q x, from_bl B fp fv fal = Ok (s, w) /\ to_bl B s w fal = Ok (q, x) /\
  close_sph (C * u) q p /\ (c3 p < PI -> close4 (C * u) q p) /\ close3 (C * u) x v).
Proof. exact FloatCoordMain.bl_cart_bl_rounded. Qed.
Print Assumptions C113_bl_cart_bl.

(** IEEE formats with a 4-ulp libm are such arithmetics *)
Theorem C113_ieee : forall F L M,
  usable F -> libm_ok F L -> libm2_ok F M -> accurate2 (uF F) (ieee2 F L M).
Proof. exact FloatCoordIEEE.ieee2_accurate. Qed.
Print Assumptions C113_ieee.

(** such a libm exists *)
Theorem C113_ieee_exists : forall F,
  usable F -> libm2_ok F (nearest_libm2 F).
Proof. exact FloatCoordIEEE.nearest_libm2_ok. Qed.
Print Assumptions C113_ieee_exists.

(** exact arithmetic has unit roundoff 0, and run in it the programs are the exact conversions: *)
Theorem C113_exact : 
  accurate2 0 exact2.
Proof. exact FloatCoordExact.exact2_accurate. Qed.
Print Assumptions C113_exact.

Theorem C113_exact_to_sph : forall t x y z,
  cart_to_sphB exact2 t x y z = Ok (cart_to_sph t x y z).
Proof. exact FloatCoordExact.to_sph_exact. Qed.
Print Assumptions C113_exact_to_sph.

Theorem C113_exact_to_sph_vel : forall x y z a b c v,
  cart_to_sph_velB exact2 x y z a b c = Ok v <-> cart_to_sph_vel x y z a b c = Ok v.
Proof. exact FloatCoordExact.to_sph_vel_exact. Qed.
Print Assumptions C113_exact_to_sph_vel.

Theorem C113_exact_from_sph : forall t r th p,
  sph_to_cartB exact2 t r th p = Ok (sph_to_cart t r th p).
Proof. exact FloatCoordExact.from_sph_exact. Qed.
Print Assumptions C113_exact_from_sph.

Theorem C113_exact_from_sph_vel : forall r th p a b c,
  sph_to_cart_velB exact2 r th p a b c = Ok (sph_to_cart_vel r th p a b c).
Proof. exact FloatCoordExact.from_sph_vel_exact. Qed.
Print Assumptions C113_exact_from_sph_vel.

Theorem C113_exact_to_bl : forall t x y z al v,
  cart_to_blB exact2 t x y z al = Ok v <-> cart_to_bl t x y z al = Ok v.
Proof. exact FloatCoordExact.to_bl_exact. Qed.
Print Assumptions C113_exact_to_bl.

Theorem C113_exact_to_bl_vel : forall x y z al a b c v,
  cart_to_bl_velB exact2 x y z al a b c = Ok v <-> cart_to_bl_vel x y z al a b c = Ok v.
Proof. exact FloatCoordExact.to_bl_vel_exact. Qed.
Print Assumptions C113_exact_to_bl_vel.

Theorem C113_exact_from_bl : forall t r th p al,
  bl_to_cartB exact2 t r th p al = Ok (bl_to_cart t r th p al).
Proof. exact FloatCoordExact.from_bl_exact. Qed.
Print Assumptions C113_exact_from_bl.

Theorem C113_exact_from_bl_vel : forall r th p al a b c v,
  bl_to_cart_velB exact2 r th p al a b c = Ok v <-> bl_to_cart_vel r th p al a b c = Ok v.
Proof. exact FloatCoordExact.from_bl_vel_exact. Qed.
Print Assumptions C113_exact_from_bl_vel.

(** the hypotheses hold at the point (x, y, z) = (-3, 0, 4), on the cut of phi, with spin 1/2, and at the spherical point (5, pi/3, pi); binary64 has unit roundoff 2^-49 *)
Example C113_nonvacuous : let p := mkQ4 0 (-3) 0 4 in let s := mkQ4 0 5 (PI / 3) PI in off_z_axis p /\ ~ off_cut p /\ c1 p <> 0 /\ 0 < bl_r (c1 p) (c2 p) (c3 p) (1 / 2) /\
  regular_sph s /\ cos (c3 s) <> 0 /\ accurate2 (uF binary64) (ieee2 binary64 (nearest_libm binary64) (nearest_libm2 binary64)) /\ uF binary64 = bpow radix2 (-49).
Proof.
  cbv zeta. unfold off_z_axis, off_cut, regular_sph. cbn [c0 c1 c2 c3]. assert (P := PI_RGT_0). split; [left; lra|]. split; [intros [H|H]; lra|]. split; [lra|]. split.
  { assert (N := bl_r_nonneg (-3) 0 4 (1 / 2)). destruct N as [N|N]; [exact N|]. symmetry in N. apply bl_r_zero_iff in N. lra. }
  split; [lra|]. split; [rewrite cos_PI; lra|]. split; [apply ieee2_accurate; [exact binary64_usable|apply nearest_libm_ok, binary64_usable|apply nearest_libm2_ok, binary64_usable]|]. reflexivity.
Qed.

(** ---- C114 ---- *)
(** in binary64 the conversion of the point x = y = 0, z = 0.2 with alpha = 0.9 gives theta = nan: z / r is rounded to 1 + 2^-52 *)
Theorem C114_axis_refuted : forall L M t,
  squares binary64 L -> cart_to_blB (ieee2 binary64 L M) t 0 0 d02 d09 = Err NonFinite.
Proof. exact FloatCoordIEEE.axis_nan. Qed.
Print Assumptions C114_axis_refuted.

(** although the exact conversion is defined on the whole axis but the origin *)
Theorem C114_axis_exact : forall t z al,
  z <> 0 -> cart_to_bl t 0 0 z al = Ok (mkQ4 t (Rabs z) (if Rlt_dec 0 z then 0 else PI) 0).
Proof. exact FloatCoordIEEE.axis_exact. Qed.
Print Assumptions C114_axis_exact.

(** d02 is the double 0.2 *)
Theorem C114_point_z : 
  finF binary64 (2 / 10) = Ok d02.
Proof. exact FloatCoordIEEE.d02_nearest. Qed.
Print Assumptions C114_point_z.

(** d09 is the double 0.9 *)
Theorem C114_point_alpha : 
  finF binary64 (9 / 10) = Ok d09.
Proof. exact FloatCoordIEEE.d09_nearest. Qed.
Print Assumptions C114_point_alpha.

Example C114_nonvacuous : squares binary64 (nearest_libm binary64) /\ d02 <> 0.
Proof. split; [apply nearest_squares, binary64_usable|]. unfold d02. apply Rgt_not_eq, Rmult_lt_0_compat; [lra|apply bpow_gt_0]. Qed.
