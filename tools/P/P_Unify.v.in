(** Properties C100 and C101: the metric classes of einsteinpy.metric agree where they describe the same spacetime.
   [same_mass o o']: the two objects carry the same mass value; [same_body]: same mass and same spin parameter values;
   [spinless o]: a = 0.  [kerr_cov], [kn_cov], [sch_cov] are metric_covariant of the three classes, [*_christoffels] their christoffels,
   [*_f_vec] their equations of motion at position x and velocity v, [singularities] BaseMetric.singularities. *)
From Coq Require Import Reals List ZArith Lra Lia Bool.
From Coquelicot Require Import Coquelicot.
From Verif Require Import Base Calc GeoUtilsModel GeoUtilsProofs CoordModel CoordProofs2 ConvModel ConvProofs MetricModel MetricSpec.
From Verif Require Import MetricProofs MetricProofs2 MetricProofs3 MetricProofs4 MetricProofs5 MetricProofs6 MetricProofs7 MetricProofs8 MetricKilling MetricUnify.
Import ListNotations.
Open Scope R_scope.

@thm C100_metric MetricUnify.spinless_metric -- C100: the metric arrays are the same, including where they are undefined
@thm C100_christoffels MetricUnify.spinless_christoffels
@thm C100_equations_of_motion MetricUnify.spinless_f_vec
@thm C100_equations_of_motion_back MetricUnify.spinless_f_vec_back
@thm C100_singularities MetricUnify.spinless_singularities
(** a solar-mass-one hole with G = c = 1 at r = 4 in the equatorial plane *)
Example C100_nonvacuous : let o := mkmobj NKerr BL (mkqty 1 1 DMass) (mkqty 0 1 DOne) (mkqty 0 1 DCharge) (mkqty 0 1 DOne) in
  let os := mkmobj NSchwarzschild Sph (mkqty 1 1 DMass) (mkqty 0 1 DOne) (mkqty 0 1 DCharge) (mkqty 0 1 DOne) in
  same_mass o os /\ spinless o /\ exists y, sch_f_vec 1 1 os (mkQ4 0 4 (PI / 2) 0) (mkQ4 1 0 0 1) = Ok y.
Proof.
  cbv zeta. set (o := mkmobj NKerr _ _ _ _ _). set (os := mkmobj NSchwarzschild _ _ _ _ _).
  split; [reflexivity|]. split; [reflexivity|].
  assert (E : exists ch, sch_christoffels 1 1 os (mkQ4 0 4 (PI / 2) 0) = Ok ch).
  { apply sch_christoffels_defined. cbn [c1 c2]. rewrite sin_PI2. unfold sch_rad, schwarzschild_radius, os. cbn [prim mo_M q_val mo_sys].
    repeat split; lra. }
  destruct E as [ch E]. unfold sch_f_vec. rewrite E. cbn [bindR]. eexists; reflexivity.
Qed.

@thm C101_exact_difference MetricUnify.kerr_vs_kn -- C101: same metrics; accelerations differ by an explicit multiple of kerr_err
@thm C101_agree_iff MetricUnify.kerr_vs_kn_iff -- they agree for every velocity exactly where kerr_err vanishes
@thm C101_same_motion_refuted MetricUnify.kerr_vs_kn_refuted
