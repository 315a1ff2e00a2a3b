(* generated from tools/P/P_Unify.v.in by tools/genp.py: statements only, proofs are references *)
(** Properties C100 and C101: the metric classes of einsteinpy.metric agree where they describe the same spacetime.
   [same_mass o o']: the two objects carry the same mass value; [same_body]: same mass and same spin parameter values;
   [spinless o]: a = 0.  [kerr_cov], [kn_cov], [sch_cov] are metric_covariant of the three classes, [*_christoffels] their christoffels,
   [*_f_vec] their equations of motion at position x and velocity v, [singularities] BaseMetric.singularities. *)
From Coq Require Import Reals List ZArith Lra Lia Bool.
From Coquelicot Require Import Coquelicot.
From Verif Require Import Base Calc GeoUtilsModel GeoUtilsProofs CoordModel CoordProofs2 ConvModel ConvProofs MetricModel MetricSpec.
From Verif Require Import MetricProofs MetricProofs2 MetricProofs3 MetricProofs4 MetricProofs5 MetricProofs6 MetricProofs7 MetricProofs8 MetricKilling MetricUnify.
Import ListNotations.
Open Scope R_scope.

(** C100: the metric arrays are the same, including where they are undefined *)
Theorem C100_metric : forall c G Cc o os x,
  mo_sys o = BL -> mo_sys os = Sph -> same_mass o os -> spinless o ->
  kerr_cov c G Cc o x = sch_cov c G os x /\ kn_cov c G Cc o x = sch_cov c G os x.
Proof. exact MetricUnify.spinless_metric. Qed.
Print Assumptions C100_metric.

Theorem C100_christoffels : forall c G Cc o os x,
  c <> 0 -> mo_sys o = BL -> mo_sys os = Sph -> same_mass o os -> spinless o ->
  ((exists ch, sch_christoffels c G os x = Ok ch) <-> (exists ch, kerr_christoffels c G Cc o x = Ok ch))
  /\ ((exists ch, sch_christoffels c G os x = Ok ch) <-> (exists ch, kn_christoffels c G Cc o x = Ok ch))
  /\ (forall ch ch', sch_christoffels c G os x = Ok ch -> kerr_christoffels c G Cc o x = Ok ch' -> eq3 ch ch')
  /\ (forall ch ch', sch_christoffels c G os x = Ok ch -> kn_christoffels c G Cc o x = Ok ch' -> eq3 ch ch').
Proof. exact MetricUnify.spinless_christoffels. Qed.
Print Assumptions C100_christoffels.

Theorem C100_equations_of_motion : forall c G Cc o os x v y,
  0 < c -> 0 < G -> 0 < Cc -> mo_sys o = BL -> mo_sys os = Sph -> same_mass o os -> spinless o ->
  sch_f_vec c G os x v = Ok y ->
  kerr_f_vec c G Cc o x v = Ok y /\ (q_val (mo_q o) = 0 -> kn_f_vec c G Cc o x v = Ok y).
Proof. exact MetricUnify.spinless_f_vec. Qed.
Print Assumptions C100_equations_of_motion.

Theorem C100_equations_of_motion_back : forall c G Cc o os x v y,
  0 < c -> 0 < G -> 0 < Cc -> mo_sys o = BL -> mo_sys os = Sph -> same_mass o os -> spinless o ->
  q_val (mo_q o) = 0 -> kerr_f_vec c G Cc o x v = Ok y \/ kn_f_vec c G Cc o x v = Ok y -> sch_f_vec c G os x v = Ok y.
Proof. exact MetricUnify.spinless_f_vec_back. Qed.
Print Assumptions C100_equations_of_motion_back.

Theorem C100_singularities : forall c G Cc o os,
  c <> 0 -> 0 <= G -> 0 <= q_val (mo_M o) ->
  mo_name o = NKerr \/ mo_name o = NKerrNewman -> mo_name os = NSchwarzschild ->
  mo_sys o = BL -> mo_sys os = Sph -> same_mass o os -> spinless o -> spinless os -> q_val (mo_Q o) = 0 ->
  exists s s', singularities c G Cc o = Ok s /\ singularities c G Cc os = Ok s'
  /\ in_hor s = in_hor s' /\ out_hor s = out_hor s'
  /\ (forall th, in_ergo s th = in_ergo s' th) /\ (forall th, out_ergo s th = out_ergo s' th).
Proof. exact MetricUnify.spinless_singularities. Qed.
Print Assumptions C100_singularities.

(** a solar-mass-one hole with G = c = 1 at r = 4 in the equatorial plane *)
Example C100_nonvacuous : let o := mkmobj NKerr BL (mkqty 1 1 DMass) (mkqty 0 1 DOne) (mkqty 0 1 DCharge) (mkqty 0 1 DOne) in
  let os := mkmobj NSchwarzschild Sph (mkqty 1 1 DMass) (mkqty 0 1 DOne) (mkqty 0 1 DCharge) (mkqty 0 1 DOne) in
  same_mass o os /\ spinless o /\ exists y, sch_f_vec 1 1 os (mkQ4 0 4 (PI / 2) 0) (mkQ4 1 0 0 1) = Ok y.
Proof.
  cbv zeta. set (o := mkmobj NKerr _ _ _ _ _). set (os := mkmobj NSchwarzschild _ _ _ _ _).
  split; [reflexivity|]. split; [reflexivity|].
  assert (E : exists ch, sch_christoffels 1 1 os (mkQ4 0 4 (PI / 2) 0) = Ok ch).
  { apply sch_christoffels_defined. cbn [c1 c2]. rewrite sin_PI2. unfold sch_rad, schwarzschild_radius, os. cbn [prim mo_M q_val mo_sys].
    repeat split; lra. }
  destruct E as [ch E]. unfold sch_f_vec. rewrite E. cbn [bindR]. eexists; reflexivity.
Qed.

(** C101: same metrics; accelerations differ by an explicit multiple of kerr_err *)
Theorem C101_exact_difference : forall c G Cc o o' x,
  0 < c -> 0 < G -> 0 < Cc -> mo_sys o = BL -> mo_sys o' = BL -> same_body o o' -> q_val (mo_q o') = 0 ->
  (forall y, kerr_cov c G Cc o y = kn_cov c G Cc o' y)
  /\ forall v v1 a, kerr_f_vec c G Cc o x v = Ok (v1, a) ->
  exists a' g gi, kn_f_vec c G Cc o' x v = Ok (v1, a') /\ kerr_cov c G Cc o x = Ok g /\ is_inverse g gi
  /\ (forall i, (i < 4)%nat -> q4nth a i - q4nth a' i = kerr_err c G o x * (mnth gi i 1 * c3 v ^ 2 - 2 * mnth gi i 3 * c1 v * c3 v)).
Proof. exact MetricUnify.kerr_vs_kn. Qed.
Print Assumptions C101_exact_difference.

(** they agree for every velocity exactly where kerr_err vanishes *)
Theorem C101_agree_iff : forall c G Cc o o' x,
  0 < c -> 0 < G -> 0 < Cc -> mo_sys o = BL -> mo_sys o' = BL -> same_body o o' -> q_val (mo_q o') = 0 ->
  bl_dom c G o x -> sin (c2 x) <> 0 ->
  ((forall v, kerr_f_vec c G Cc o x v = kn_f_vec c G Cc o' x v) <-> kerr_err c G o x = 0).
Proof. exact MetricUnify.kerr_vs_kn_iff. Qed.
Print Assumptions C101_agree_iff.

Theorem C101_same_motion_refuted : forall c G Cc,
  0 < c -> 0 < G -> 0 < Cc ->
  exists o o' x v, mo_sys o = BL /\ mo_sys o' = BL /\ same_body o o' /\ q_val (mo_Q o') = 0 /\ q_val (mo_q o') = 0
  /\ (exists y, kerr_f_vec c G Cc o x v = Ok y) /\ (exists y, kn_f_vec c G Cc o' x v = Ok y)
  /\ kerr_f_vec c G Cc o x v <> kn_f_vec c G Cc o' x v.
Proof. exact MetricUnify.kerr_vs_kn_refuted. Qed.
Print Assumptions C101_same_motion_refuted.

