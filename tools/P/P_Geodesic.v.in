(** Property C15: einsteinpy.geodesic.Geodesic / Nulllike / Timelike. *)
From Coq Require Import String Reals List ZArith Lra Lia Bool.
From Verif Require Import Base DualModel DualSpec GeoUtilsModel GeoUtilsSpec GeoUtilsProofs FantasyModel
  FantasyProofs FantasyProofs2 GeodesicModel GeodesicProofs GeodesicDef.
Import ListNotations.
Open Scope R_scope.

@thm C15_trajectory GeodesicProofs.trajectory_spec -- C15: rows and step numbers
@thm C15_rows_are_iterates GeodesicProofs.chain_nth
@thm C15_steps_complete GeodesicProofs.run_steps_progress
@thm C15_modes_agree GeodesicProofs.modes_agree
@thm C15_geodesic GeodesicProofs.geodesic_spec
@thm C15_defaults GeodesicDef.default_trajectory -- the documented defaults: 50 steps of order 2, size 1/2, coupling 1
@thm C15_unknown_metric GeodesicProofs.unknown_metric
@thm C15_unknown_order GeodesicProofs.unknown_order
@thm C15_unknown_order_exception GeodesicProofs.unknown_order_exn
@thm C15_zero_steps_refuted GeodesicProofs.zero_steps -- steps=0 does not give an empty trajectory but IndexError

Example C15_nonvacuous : In (k_order default_kwargs) [2;4;6;8]%nat /\ (0 < k_steps default_kwargs)%nat.
Proof. split; [left; reflexivity|cbn; lia]. Qed.

@thm C15_named_metric GeodesicProofs.named_geodesic -- [book] names the textbook line elements; the metric integrated is their inverse, the initial momentum is on its shell
@thm C15_timelike GeodesicProofs.timelike_shell
@thm C15_nulllike GeodesicProofs.nulllike_shell
@thm C15_cartesian GeodesicProofs.cartesian_rows
Example C15_book_nonvacuous : book "Kerr" [9/10] (kn_cov (9/10) 0) (fun r th => 0 < r /\ 0 < DeltaS r (9/10) 0 /\ sin th <> 0) /\ (0 < 10 /\ 0 < DeltaS 10 (9/10) 0 /\ sin (PI / 2) <> 0).
Proof. split; [constructor|]. unfold DeltaS. rewrite sin_PI2. repeat split; lra. Qed.
