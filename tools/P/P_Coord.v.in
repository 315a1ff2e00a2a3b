(** Properties C19-C25: coordinate conversions (einsteinpy.coordinates.utils). *)
From Coq Require Import Reals List ZArith Lra Lia Bool.
From Coquelicot Require Import Coquelicot.
From Verif Require Import Base Calc GeoUtilsModel CoordModel CoordProofs CoordProofs2 CoordProofs3 CoordProofs4 CoordProofs5 CoordProofs6.
Open Scope R_scope.

@thm C19_cart_sph_cart CoordProofs.cart_sph_cart -- C19: no hypothesis at all, axis and origin included
Example C19_nonvacuous : c1 (cart_to_sph 0 3 4 0) = 5.
Proof. cbn [c1 cart_to_sph]. unfold hypot. rewrite sqrt_sqrt by lra. replace (3*3+4*4+0*0) with (5*5) by lra. apply sqrt_square; lra. Qed.

@thm C20_sph_cart_sph CoordProofs.sph_cart_sph -- C20
Example C20_nonvacuous : 0 < 2 /\ 0 < PI/3 < PI /\ - PI < 1 <= PI.
Proof. pose proof PI2_3_2. unfold PI2 in *. lra. Qed.

@thm C21_cart_sph_velocity CoordProofs2.cart_sph_velocity -- C21: the converted velocity is the derivative of the converted position
@thm C21_sph_cart_velocity CoordProofs2.sph_cart_velocity
@thm C21_round_trip_sph CoordProofs2.vel_sph_cart_sph
@thm C21_round_trip_cart CoordProofs3.vel_cart_sph_cart
Example C21_nonvacuous : exists v, cart_to_sph_vel 0 4 0 1 2 3 = Ok v /\ v3 v = -1/4.
Proof.
  destruct (vel_cart_sph_cart 0 0 4 0 1 2 3 ltac:(right; lra)) as [v [E _]]. exists v; split; [exact E|].
  revert E. unfold cart_to_sph_vel, np_div.
  destruct Req_EM_T as [e|_]; [discriminate|]. cbn [bindR].
  destruct Req_EM_T as [e|_]; [discriminate|]. cbn [bindR].
  destruct Req_EM_T as [e|_]; [discriminate|]. cbn [bindR].
  intros [= <-]. cbn [v3]. field.
Qed.

@thm C22_cart_bl_cart CoordProofs4.cart_bl_cart -- C22
@thm C22_bl_cart_bl CoordProofs4.bl_cart_bl
@thm C22_defined_off_disc CoordProofs4.bl_r_zero_iff -- the hypothesis of the round trip fails exactly on the disc z = 0, x^2+y^2 <= alpha^2
@thm C22_oblate_ellipsoid CoordProofs4.bl_r_ellipsoid
Example C22_nonvacuous : 0 < bl_r 3 4 1 2.
Proof.
  destruct (Rle_lt_or_eq_dec _ _ (bl_r_nonneg 3 4 1 2)) as [H|H]; [exact H|].
  symmetry in H. apply bl_r_zero_iff in H. lra.
Qed.

@thm C23_bl_cart_velocity CoordProofs4.bl_cart_velocity -- C23
@thm C23_cart_bl_velocity CoordProofs5.cart_bl_velocity
@thm C23_round_trip_cart CoordProofs6.vel_cart_bl_cart
@thm C23_round_trip_bl CoordProofs6.vel_bl_cart_bl

@thm C24_bl_vphi_refuted CoordProofs5.bl_vphi_refuted -- C24 is false: the plane x = 0
@thm C24_available_iff CoordProofs5.bl_vel_available_iff -- what holds: v_phi is available exactly when x is not 0
@thm C24_x0 CoordProofs5.bl_vel_x0

@thm C25_zero_spin_pos CoordProofs5.zero_spin_pos -- C25
@thm C25_zero_spin_pos_inv CoordProofs5.zero_spin_pos_inv
@thm C25_zero_spin_vel CoordProofs5.zero_spin_vel
@thm C25_zero_spin_vel_inv CoordProofs5.zero_spin_vel_inv
