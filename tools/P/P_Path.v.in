(** Property C125: chains of coordinate conversions (einsteinpy.coordinates). *)
From Coq Require Import String Reals List ZArith Lra Lia Bool.
From Coquelicot Require Import Coquelicot.
From Verif Require Import Base GeoUtilsModel CoordModel ConvModel ConvPath.
Import ListNotations.
Open Scope R_scope.

@thm C125_event ConvPath.walk_ok -- C125: every chain of conversions of a position succeeds and stands for the same event
@thm C125_same_object ConvPath.walk_unique -- two chains that end in the same system end in the same object
@thm C125_closed ConvPath.walk_closed -- a closed chain returns the original values
@thm C125_velocity_meaning ConvPath.vplace_velocity -- vplace is the velocity of the event the moving coordinates stand for
@thm C125_motion ConvPath.walkv_ok -- with velocities: the same event and the same velocity
@thm C125_motion_same_object ConvPath.walkv_unique
@thm C125_motion_closed ConvPath.walkv_closed
(** a moving body at (3, 4, 2) and a chain of six conversions satisfy the hypotheses *)
Example C125_nonvacuous : let M := NFloat 1 in let a := NFloat (/ 2) in let al := prim a * (1 * prim M / 1 ^ 2) in let path := [Sph; BL; Cart; BL; Sph; Cart] in
  exists k kv, ex_coord = Ok k /\ ex_diffl = Ok kv /\ 0 <= prim a <= 1 /\ hops Cart path /\ si4 (co_q k) = mkQ4 0 3 4 2 /\ si4 (df_q kv) = mkQ4 0 3 4 2 /\ si3 (df_v kv) = mk3 1 2 5 /\
    let e := place al Cart (si4 (df_q kv)) in c1 e <> 0 /\ ~ on_disc al e.
Proof. exact ex_hyps. Qed.
