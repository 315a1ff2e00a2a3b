(** Properties C26, C27, C29, C30, C31: conversion classes, coordinate objects, 4-velocity (einsteinpy.coordinates). *)
From Coq Require Import String Reals List ZArith Lra Lia Bool.
From Verif Require Import Base GeoUtilsModel GeoUtilsProofs CoordModel CoordProofs CoordProofs4 ConvModel ConvProofs ConvProofs2 ConvProofs3.
Import ListNotations.
Open Scope R_scope.

@thm C26_values ConvProofs.values_spec -- C26: 7 components exactly when all three velocities were given
@thm C26_length ConvProofs.convert_length
@thm C26_missing_kwargs ConvProofs.convert_missing_kwargs
@thm C26_invalid_spin ConvProofs.convert_invalid_spin
@thm C26_positions ConvProofs.convert_direct -- every conversion of a position, indirect ones through Cartesian
@thm C26_velocities ConvProofs.convert_direct_vel
Example C26_nonvacuous : convert 1 1 BL Sph (mkconv (mkQ4 0 1 1 1) None None None) (Some (NFloat 1), None) = Err KeyError
  /\ convert 1 1 Sph BL (mkconv (mkQ4 0 1 1 1) None (Some 1) None) (Some (NFloat 1), Some (NFloat 2)) = Err ValueError.
Proof. split; [apply C26_missing_kwargs|apply C26_invalid_spin]; simpl; try discriminate; try reflexivity; auto. right; simpl; lra. Qed.

@thm C27_position ConvProofs.units_position -- C27: equal SI values give equal results, whatever the units
@thm C27_velocity ConvProofs.units_velocity
@thm C27_rescale ConvProofs.same_arg_rescale -- value v in a unit of k SI units is the same argument as v*k SI units
@thm C27_arguments ConvProofs3.coord_arguments -- an object is built exactly from quantities of the documented dimensions, and holds them; otherwise the first bad argument decides the exception
@thm C27_differential_arguments ConvProofs3.diff_arguments
@thm C27_position_value ConvProofs3.coord_position -- position() is (c t, x, y, z) in SI units
@thm C27_differential_position_value ConvProofs3.diff_position
@thm C27_conversion ConvProofs3.coord_conversion -- a converted object holds the converted SI values, in SI units of the documented dimensions
@thm C27_differential_conversion ConvProofs3.diff_conversion
@thm C27_object_round_trip ConvProofs.coord_round_trip
@thm C27_object_round_trip_bl ConvProofs.coord_round_trip_bl
Example C27_nonvacuous : same4 (mkQ4 (NQty (mkqty 2 60 DTime)) (NQty (mkqty 3 1000 DLength)) (NQty (mkqty 1 1 DLength)) (NQty (mkqty 1 1 DLength)))
   (mkQ4 (NQty (mkqty 120 1 DTime)) (NQty (mkqty 3000 1 DLength)) (NQty (mkqty 100 (1/100) DLength)) (NQty (mkqty 1 1 DLength))).
Proof. repeat split; unfold si; cbn [q_val q_scale]; try lra; simpl; lra. Qed.

@thm C29_normalised ConvProofs2.v0_normalised -- C29
@thm C29_defined_iff ConvProofs2.v0_defined
@thm C29_future ConvProofs2.v0_future
@thm C29_velocity ConvProofs2.velocity_ok
@thm C29_velocity_value ConvProofs3.diff_velocity
@thm C29_mismatch ConvProofs2.velocity_mismatch
@thm C29_frame ConvProofs2.velocity_frame
@thm C29_history ConvProofs2.vel_history -- every history of velocity() calls
Example C29_nonvacuous : let g := mkQ4 (mkQ4 1 0 0 0) (mkQ4 0 (-1) 0 0) (mkQ4 0 0 (-1) 0) (mkQ4 0 0 0 (-1)) in
  symmetric4 g /\ 0 < mnth g 0 0 /\ norm2 g (mkQ4 0 (1/2) 0 0) < 1 ^ 2.
Proof.
  cbv zeta. split; [|split].
  - intros i j Hi Hj. destruct i as [|[|[|[|i]]]]; [..|lia]; destruct j as [|[|[|[|j]]]]; try lia; reflexivity.
  - unfold mnth; simpl; lra.
  - unfold norm2, dot, mv, q4map, dot; cbn [c0 c1 c2 c3]. lra.
Qed.

@thm C30_int ConvProofs2.getitem_int -- C30
@thm C30_int_out ConvProofs2.getitem_int_out
@thm C30_name ConvProofs2.getitem_name
@thm C30_system ConvProofs2.getitem_system
@thm C30_documented ConvProofs2.getitem_documented
@thm C30_unknown ConvProofs2.getitem_undocumented

@thm C31_lorentz ConvProofs2.lorentz_def -- C31
@thm C31_superluminal ConvProofs2.lorentz_superluminal
@thm C31_speed_only ConvProofs2.lorentz_speed_only
