(* generated from tools/P/P_Coord.v.in by tools/genp.py: statements only, proofs are references *)
(** Properties C19-C25: coordinate conversions (einsteinpy.coordinates.utils). *)
From Coq Require Import Reals List ZArith Lra Lia Bool.
From Coquelicot Require Import Coquelicot.
From Verif Require Import Base Calc GeoUtilsModel CoordModel CoordProofs CoordProofs2 CoordProofs3 CoordProofs4 CoordProofs5 CoordProofs6.
Open Scope R_scope.

(** C19: no hypothesis at all, axis and origin included *)
Theorem C19_cart_sph_cart : forall t x y z,
  let s := cart_to_sph t x y z in
  sph_to_cart (c0 s) (c1 s) (c2 s) (c3 s) = mkQ4 t x y z
  /\ 0 <= c1 s /\ 0 <= c2 s <= PI /\ - PI < c3 s <= PI.
Proof. exact CoordProofs.cart_sph_cart. Qed.
Print Assumptions C19_cart_sph_cart.

Example C19_nonvacuous : c1 (cart_to_sph 0 3 4 0) = 5.
Proof. cbn [c1 cart_to_sph]. unfold hypot. rewrite sqrt_sqrt by lra. replace (3*3+4*4+0*0) with (5*5) by lra. apply sqrt_square; lra. Qed.

(** C20 *)
Theorem C20_sph_cart_sph : forall t r th p,
  0 < r -> 0 < th < PI -> - PI < p <= PI ->
  let c := sph_to_cart t r th p in
  cart_to_sph (c0 c) (c1 c) (c2 c) (c3 c) = mkQ4 t r th p.
Proof. exact CoordProofs.sph_cart_sph. Qed.
Print Assumptions C20_sph_cart_sph.

Example C20_nonvacuous : 0 < 2 /\ 0 < PI/3 < PI /\ - PI < 1 <= PI.
Proof. pose proof PI2_3_2. unfold PI2 in *. lra. Qed.

(** C21: the converted velocity is the derivative of the converted position *)
Theorem C21_cart_sph_velocity : forall (x y z : R -> R) (t0 vx vy vz : R),
  is_derive x t0 vx -> is_derive y t0 vy -> is_derive z t0 vz -> x t0 <> 0 \/ y t0 <> 0 ->
  exists v, cart_to_sph_vel (x t0) (y t0) (z t0) vx vy vz = Ok v
  /\ is_derive (fun s => c1 (cart_to_sph s (x s) (y s) (z s))) t0 (v1 v)
  /\ is_derive (fun s => c2 (cart_to_sph s (x s) (y s) (z s))) t0 (v2 v)
  /\ (exists psi, same_angle_near t0 psi (fun s => c3 (cart_to_sph s (x s) (y s) (z s))) /\ is_derive psi t0 (v3 v))
  /\ (0 < x t0 \/ y t0 <> 0 -> is_derive (fun s => c3 (cart_to_sph s (x s) (y s) (z s))) t0 (v3 v)).
Proof. exact CoordProofs2.cart_sph_velocity. Qed.
Print Assumptions C21_cart_sph_velocity.

Theorem C21_sph_cart_velocity : forall (r th p : R -> R) (t0 vr vth vp : R),
  is_derive r t0 vr -> is_derive th t0 vth -> is_derive p t0 vp ->
  let v := sph_to_cart_vel (r t0) (th t0) (p t0) vr vth vp in
  is_derive (fun s => c1 (sph_to_cart s (r s) (th s) (p s))) t0 (v1 v)
  /\ is_derive (fun s => c2 (sph_to_cart s (r s) (th s) (p s))) t0 (v2 v)
  /\ is_derive (fun s => c3 (sph_to_cart s (r s) (th s) (p s))) t0 (v3 v).
Proof. exact CoordProofs2.sph_cart_velocity. Qed.
Print Assumptions C21_sph_cart_velocity.

Theorem C21_round_trip_sph : forall r th p vr vth vp,
  0 < r -> 0 < th < PI ->
  let v := sph_to_cart_vel r th p vr vth vp in
  let c := sph_to_cart 0 r th p in
  cart_to_sph_vel (c1 c) (c2 c) (c3 c) (v1 v) (v2 v) (v3 v) = Ok (mk3 vr vth vp).
Proof. exact CoordProofs2.vel_sph_cart_sph. Qed.
Print Assumptions C21_round_trip_sph.

Theorem C21_round_trip_cart : forall t x y z vx vy vz,
  x <> 0 \/ y <> 0 ->
  let s := cart_to_sph t x y z in
  exists v, cart_to_sph_vel x y z vx vy vz = Ok v
  /\ sph_to_cart_vel (c1 s) (c2 s) (c3 s) (v1 v) (v2 v) (v3 v) = mk3 vx vy vz.
Proof. exact CoordProofs3.vel_cart_sph_cart. Qed.
Print Assumptions C21_round_trip_cart.

Example C21_nonvacuous : exists v, cart_to_sph_vel 0 4 0 1 2 3 = Ok v /\ v3 v = -1/4.
Proof.
  destruct (vel_cart_sph_cart 0 0 4 0 1 2 3 ltac:(right; lra)) as [v [E _]]. exists v; split; [exact E|].
  revert E. unfold cart_to_sph_vel, np_div.
  destruct Req_EM_T as [e|_]; [discriminate|]. cbn [bindR].
  destruct Req_EM_T as [e|_]; [discriminate|]. cbn [bindR].
  destruct Req_EM_T as [e|_]; [discriminate|]. cbn [bindR].
  intros [= <-]. cbn [v3]. field.
Qed.

(** C22 *)
Theorem C22_cart_bl_cart : forall t x y z al,
  0 < bl_r x y z al ->
  exists s, cart_to_bl t x y z al = Ok s /\ bl_to_cart (c0 s) (c1 s) (c2 s) (c3 s) al = mkQ4 t x y z
  /\ 0 < c1 s /\ 0 <= c2 s <= PI /\ - PI < c3 s <= PI.
Proof. exact CoordProofs4.cart_bl_cart. Qed.
Print Assumptions C22_cart_bl_cart.

Theorem C22_bl_cart_bl : forall t r th p al,
  0 < r -> 0 < th < PI -> - PI < p <= PI ->
  let c := bl_to_cart t r th p al in
  cart_to_bl (c0 c) (c1 c) (c2 c) (c3 c) al = Ok (mkQ4 t r th p).
Proof. exact CoordProofs4.bl_cart_bl. Qed.
Print Assumptions C22_bl_cart_bl.

(** the hypothesis of the round trip fails exactly on the disc z = 0, x^2+y^2 <= alpha^2 *)
Theorem C22_defined_off_disc : forall x y z al,
  bl_r x y z al = 0 <-> z = 0 /\ x * x + y * y <= al * al.
Proof. exact CoordProofs4.bl_r_zero_iff. Qed.
Print Assumptions C22_defined_off_disc.

Theorem C22_oblate_ellipsoid : forall x y z al,
  let r := bl_r x y z al in
  (x * x + y * y) * (r * r) = (r * r + al * al) * (r * r - z * z).
Proof. exact CoordProofs4.bl_r_ellipsoid. Qed.
Print Assumptions C22_oblate_ellipsoid.

Example C22_nonvacuous : 0 < bl_r 3 4 1 2.
Proof.
  destruct (Rle_lt_or_eq_dec _ _ (bl_r_nonneg 3 4 1 2)) as [H|H]; [exact H|].
  symmetry in H. apply bl_r_zero_iff in H. lra.
Qed.

(** C23 *)
Theorem C23_bl_cart_velocity : forall (r th p : R -> R) (al t0 vr vth vp : R),
  is_derive r t0 vr -> is_derive th t0 vth -> is_derive p t0 vp -> r t0 <> 0 \/ al <> 0 ->
  exists v, bl_to_cart_vel (r t0) (th t0) (p t0) al vr vth vp = Ok v
  /\ is_derive (fun s => c1 (bl_to_cart s (r s) (th s) (p s) al)) t0 (v1 v)
  /\ is_derive (fun s => c2 (bl_to_cart s (r s) (th s) (p s) al)) t0 (v2 v)
  /\ is_derive (fun s => c3 (bl_to_cart s (r s) (th s) (p s) al)) t0 (v3 v).
Proof. exact CoordProofs4.bl_cart_velocity. Qed.
Print Assumptions C23_bl_cart_velocity.

Theorem C23_cart_bl_velocity : forall (x y z : R -> R) (al t0 vx vy vz : R),
  is_derive x t0 vx -> is_derive y t0 vy -> is_derive z t0 vz ->
  0 < bl_r (x t0) (y t0) (z t0) al -> x t0 <> 0 ->
  exists v (P : R -> V4), cart_to_bl_vel (x t0) (y t0) (z t0) al vx vy vz = Ok v
  /\ locally t0 (fun s => cart_to_bl s (x s) (y s) (z s) al = Ok (P s))
  /\ is_derive (fun s => c1 (P s)) t0 (v1 v)
  /\ is_derive (fun s => c2 (P s)) t0 (v2 v)
  /\ (exists psi, same_angle_near t0 psi (fun s => c3 (P s)) /\ is_derive psi t0 (v3 v))
  /\ (0 < x t0 \/ y t0 <> 0 -> is_derive (fun s => c3 (P s)) t0 (v3 v)).
Proof. exact CoordProofs5.cart_bl_velocity. Qed.
Print Assumptions C23_cart_bl_velocity.

Theorem C23_round_trip_cart : forall t x y z al vx vy vz,
  x <> 0 -> 0 < bl_r x y z al ->
  exists s v, cart_to_bl t x y z al = Ok s /\ cart_to_bl_vel x y z al vx vy vz = Ok v
  /\ bl_to_cart_vel (c1 s) (c2 s) (c3 s) al (v1 v) (v2 v) (v3 v) = Ok (mk3 vx vy vz).
Proof. exact CoordProofs6.vel_cart_bl_cart. Qed.
Print Assumptions C23_round_trip_cart.

Theorem C23_round_trip_bl : forall t r th p al vr vth vp,
  0 < r -> 0 < th < PI -> - PI < p <= PI -> cos p <> 0 ->
  let c := bl_to_cart t r th p al in
  exists v, bl_to_cart_vel r th p al vr vth vp = Ok v
  /\ cart_to_bl_vel (c1 c) (c2 c) (c3 c) al (v1 v) (v2 v) (v3 v) = Ok (mk3 vr vth vp).
Proof. exact CoordProofs6.vel_bl_cart_bl. Qed.
Print Assumptions C23_round_trip_bl.


(** C24 is false: the plane x = 0 *)
Theorem C24_bl_vphi_refuted : 
  exists x y z al vx vy vz,
  (x <> 0 \/ y <> 0) /\ 0 < bl_r x y z al /\ cart_to_bl_vel x y z al vx vy vz = Err NonFinite
  /\ (exists v, cart_to_sph_vel x y z vx vy vz = Ok v).
Proof. exact CoordProofs5.bl_vphi_refuted. Qed.
Print Assumptions C24_bl_vphi_refuted.

(** what holds: v_phi is available exactly when x is not 0 *)
Theorem C24_available_iff : forall x y z al vx vy vz,
  0 < bl_r x y z al -> x <> 0 \/ y <> 0 ->
  ((exists v, cart_to_bl_vel x y z al vx vy vz = Ok v) <-> x <> 0).
Proof. exact CoordProofs5.bl_vel_available_iff. Qed.
Print Assumptions C24_available_iff.

Theorem C24_x0 : forall y z al vx vy vz,
  cart_to_bl_vel 0 y z al vx vy vz = Err NonFinite.
Proof. exact CoordProofs5.bl_vel_x0. Qed.
Print Assumptions C24_x0.


(** C25 *)
Theorem C25_zero_spin_pos : forall t x y z,
  (x <> 0 \/ y <> 0 \/ z <> 0) -> cart_to_bl t x y z 0 = Ok (cart_to_sph t x y z).
Proof. exact CoordProofs5.zero_spin_pos. Qed.
Print Assumptions C25_zero_spin_pos.

Theorem C25_zero_spin_pos_inv : forall t r th p,
  0 <= r -> bl_to_cart t r th p 0 = sph_to_cart t r th p.
Proof. exact CoordProofs5.zero_spin_pos_inv. Qed.
Print Assumptions C25_zero_spin_pos_inv.

Theorem C25_zero_spin_vel : forall x y z vx vy vz,
  x <> 0 ->
  cart_to_bl_vel x y z 0 vx vy vz = cart_to_sph_vel x y z vx vy vz.
Proof. exact CoordProofs5.zero_spin_vel. Qed.
Print Assumptions C25_zero_spin_vel.

Theorem C25_zero_spin_vel_inv : forall r th p vr vth vp,
  0 < r ->
  bl_to_cart_vel r th p 0 vr vth vp = Ok (sph_to_cart_vel r th p vr vth vp).
Proof. exact CoordProofs5.zero_spin_vel_inv. Qed.
Print Assumptions C25_zero_spin_vel_inv.

