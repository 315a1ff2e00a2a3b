(** Property C128: chains of coordinate conversions (einsteinpy.coordinates) in floating point.
   [accurate2 u B]: the arithmetic B (its +, -, *, /, powers, sqrt, sin, cos, hypot, arctan2, arccos) has unit roundoff u.
   [chainB B c G M a s path p v], [chainP B c G M a s path p]: the spin length and then the conversions of the chain, run in B on a tuple with velocities / without.
   [walkv c G M a path k], [walk c G M a path k]: the same chain of conversion methods on objects in exact arithmetic (property C125).
   [rounded_inputs K p v claim], [rounded_input K p claim]: there are r > 0 and C such that the claim holds for every u < r, every B of unit roundoff u and all float inputs within K u of p (and v).
   [close_in s e q l]: within e in every component, the azimuth of an angular system s compared up to a full turn; [close4], [close3]: in every component. *)
From Coq Require Import String Reals List ZArith Lra Lia Bool.
From Coquelicot Require Import Coquelicot.
From Flocq Require Import Core.
From Verif Require Import Base GeoUtilsModel CoordModel ConvModel ConvPath FloatModel FloatIEEE FloatCoordModel FloatCoord FloatCoordMain FloatCoordExact FloatCoordIEEE FloatPath.
Import ListNotations.
Open Scope R_scope.

@thm C128_positions FloatPath.chain_rounded -- C128: a chain of conversions of a position succeeds in floating point and is within C u of the exact object
@thm C128_motions FloatPath.chain_vel_rounded -- with velocities
@thm C128_closed FloatPath.closed_rounded -- a closed chain returns to within C u of where it started
@thm C128_closed_motions FloatPath.closed_vel_rounded
@thm C128_spin_length FloatPath.alphaB_rounded -- the spin length computed by BaseMetric.alpha
@thm C128_ieee FloatCoordIEEE.ieee2_accurate -- IEEE formats with a 4-ulp libm are such arithmetics
@thm C128_exact FloatCoordExact.exact2_accurate -- exact arithmetic is one of unit roundoff 0
(** a moving body at (3, 4, 2) and a closed chain of six conversions satisfy the hypotheses; binary64 has unit roundoff 2^-49 *)
Example C128_nonvacuous : let M := NFloat 1 in let a := NFloat (/ 2) in let al := prim a * (1 * prim M / 1 ^ 2) in let path := [Sph; BL; Cart; BL; Sph; Cart] in
  exists k kv, ex_coord = Ok k /\ ex_diffl = Ok kv /\ 0 <= prim a <= 1 /\ hops Cart path /\ last path Cart = Cart /\ si4 (co_q k) = mkQ4 0 3 4 2 /\ si4 (df_q kv) = mkQ4 0 3 4 2 /\ si3 (df_v kv) = mk3 1 2 5 /\
    (let e := place al Cart (si4 (df_q kv)) in c1 e <> 0 /\ ~ on_disc al e /\ off_cut e) /\
    accurate2 (uF binary64) (ieee2 binary64 (nearest_libm binary64) (nearest_libm2 binary64)) /\ uF binary64 = bpow radix2 (-49).
Proof.
  destruct ex_hyps as (k & kv & E1 & E2 & H1 & H2 & H3 & H4 & H5 & H6 & H7). cbv zeta. exists k, kv. split; [exact E1|]. split; [exact E2|]. split; [exact H1|]. split; [exact H2|]. split; [reflexivity|]. split; [exact H3|]. split; [exact H4|]. split; [exact H5|].
  split; [split; [exact H6|]; split; [exact H7|]; rewrite H4; left; cbn [place c1]; lra|].
  split; [apply ieee2_accurate; [exact binary64_usable|apply nearest_libm_ok, binary64_usable|apply nearest_libm2_ok, binary64_usable]|]. reflexivity.
Qed.
