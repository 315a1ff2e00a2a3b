From Coq Require Import Reals List ZArith Lra Lia Bool.
From Coquelicot Require Import Coquelicot.
From Verif Require Import Base Calc GeoUtilsModel GeoUtilsProofs CoordModel CoordProofs CoordProofs2.
Import ListNotations.
Open Scope R_scope.

(** velocities: Cartesian -> spherical -> Cartesian is the identity off the axis *)
Lemma vel_cart_sph_cart t x y z vx vy vz : x <> 0 \/ y <> 0 ->
  let s := cart_to_sph t x y z in
  exists v, cart_to_sph_vel x y z vx vy vz = Ok v
   /\ sph_to_cart_vel (c1 s) (c2 s) (c3 s) (v1 v) (v2 v) (v3 v) = mk3 vx vy vz.
Proof.
  intros H. cbv zeta. unfold cart_to_sph, cart_to_sph_vel, sph_to_cart_vel; cbn [c0 c1 c2 c3].
  destruct (atan2_polar x y) as [A B]. destruct (atan2_polar z (hypot x y)) as [C D].
  assert (E : hypot (hypot x y) z = hypot z (hypot x y)) by (unfold hypot; f_equal; ring).
  assert (Hh := hypot_pos x y H). assert (HR := hypot_pos z (hypot x y) ltac:(right; lra)).
  assert (E1 : sqrt (x ^ 2 + y ^ 2) = hypot x y) by (unfold hypot; f_equal; ring).
  assert (E2 : sqrt (x ^ 2 + y ^ 2 + z ^ 2) = hypot z (hypot x y)).
  { unfold hypot at 1. rewrite hypot_sq. f_equal; ring. }
  assert (Q1 := hypot_sq x y). assert (Q2 := hypot_sq z (hypot x y)).
  rewrite E, E1, E2. set (rho := hypot x y) in *. set (R0 := hypot z rho) in *.
  set (cp := cos (atan2 y x)) in *. set (sp := sin (atan2 y x)) in *.
  set (ct := cos (atan2 rho z)) in *. set (st := sin (atan2 rho z)) in *.
  replace (x ^ 2 + y ^ 2 + z ^ 2) with (R0 * R0) by (rewrite Q2, Q1; ring).
  replace (x ^ 2 + y ^ 2) with (rho * rho) by (rewrite Q1; ring).
  rewrite !np_div_ok by (repeat apply mul_nz; lra). cbn [bindR]. eexists. split; [reflexivity|]. cbn [v1 v2 v3].
  assert (Tp : sp * sp + cp * cp = 1) by (unfold sp, cp; assert (X := sin2_cos2 (atan2 y x)); unfold Rsqr in X; exact X).
  assert (Tt : st * st + ct * ct = 1) by (unfold st, ct; assert (X := sin2_cos2 (atan2 rho z)); unfold Rsqr in X; exact X).
  assert (Hst : 0 < st) by (apply Rmult_lt_reg_l with R0; [exact HR|]; lra).
  clearbody cp sp ct st. clear E E1 E2 Q1 Q2 H. clearbody R0. clearbody rho. subst rho x y z. f_equal.
  - apply Rminus_diag_uniq.
    match goal with |- ?e = 0 => replace e with
      ((st * st + ct * ct) * cp * (cp * vx + sp * vy) - sp * cp * vy + sp * sp * vx - vx) end.
    { rewrite Tt. transitivity ((sp * sp + cp * cp) * vx - vx); [ring|]. rewrite Tp. ring. }
    field. lra.
  - apply Rminus_diag_uniq.
    match goal with |- ?e = 0 => replace e with
      ((st * st + ct * ct) * sp * (cp * vx + sp * vy) - sp * cp * vx + cp * cp * vy - vy) end.
    { rewrite Tt. transitivity ((sp * sp + cp * cp) * vy - vy); [ring|]. rewrite Tp. ring. }
    field. lra.
  - apply Rminus_diag_uniq.
    match goal with |- ?e = 0 => replace e with ((st * st + ct * ct) * vz - vz + 0) end.
    { rewrite Tt. ring. }
    field. lra.
Qed.
