(** Property C108: the three descriptions of the black holes in einsteinpy agree: the symbolic predefined metrics (einsteinpy.symbolic.predefined),
   the numeric classes (einsteinpy.metric) and the metric functions of einsteinpy.geodesic.
   A valuation p gives values to the symbols; p 0 .. p 3 are the coordinates, [at4 p] the point they form, [eval e p] the value of expression e.
   [param e]: e does not contain the coordinates.  [sch_chart], [kerr_chart], [kn_chart]: valuations where the symbolic metric and its inverse are defined.
   [inverts U simp minv G]: simplify preserves values and the matrix inverter finds the inverse of G on U.
   [christoffels_from_metric (metric_of U simp minv G)] models ChristoffelSymbols.from_metric; [ev U e p] is the value of its entry e.
   [sch_rad c G o] = 2GM/c^2 and [al_of c G o] = a GM/c^2 are the Schwarzschild radius and spin parameter of the numeric object o.
   [sch_cov], [kerr_cov], [kn_cov] are metric_covariant, [.._christoffels] the numeric Christoffel arrays; [metric_at] evaluates the metric functions of geodesic/utils.py.
   [inverts_at m G p]: the matrix m is the inverse of minus the value of the symbolic metric G at p (geodesic uses signature -+++, predefined +---). *)
From Coq Require Import String Ascii Reals List Arith Lia Lra.
From Coquelicot Require Import Coquelicot.
From Verif Require Import Base Calc CoordModel ConvModel CoordProofs2 MetricModel MetricSpec MetricProofs MetricProofs2 MetricProofs3 MetricProofs4 MetricProofs6 MetricUnify.
From Verif Require Import SymAlg SymModel ExprModel PredefModel PredefBridge PredefProofs PredefProofs2 PredefKerr PredefKN PredefFinal PredefNum.
Import ListNotations.
Open Scope R_scope.

@thm C108_schwarzschild_metric PredefNum.sch_values -- metric_covariant is c^2 times the symbolic metric
@thm C108_kerr_metric PredefNum.kerr_values
@thm C108_kerr_newman_metric PredefNum.kn_values -- without charge
@thm C108_schwarzschild_christoffels PredefNum.sch_christoffels_agree
@thm C108_kerr_newman_christoffels PredefNum.kn_christoffels_agree -- without charge
@thm C108_kerr_christoffels PredefNum.kerr_christoffels_agree -- the numeric Kerr-Newman class has the symbolic Kerr symbols; the numeric Kerr class differs from them by multiples of kerr_err
@thm C108_kerr_christoffels_iff PredefNum.kerr_christoffels_iff -- equal exactly where kerr_err vanishes
@thm C108_kerr_christoffels_refuted PredefNum.kerr_agree_refuted -- which is not everywhere
@thm C108_charge PredefNum.kn_charge_difference -- the numeric Kerr-Newman metric ignores the charge: exact difference of the time component
@thm C108_charge_refuted PredefNum.kn_charge_refuted -- so it never agrees with the symbolic metric of a charged black hole
@thm C108_geodesic_schwarzschild PredefNum.sch_geodesic_agrees
@thm C108_geodesic_kerr PredefNum.kerr_geodesic_agrees
@thm C108_geodesic_kerr_newman PredefNum.kn_geodesic_agrees -- here with the charge
Example C108_nonvacuous : let o := mkmobj NKerrNewman BL (mkqty 1 1 DMass) (mkqty (1 / 2) 1 DOne) (mkqty 0 1 DCharge) (mkqty 0 1 DOne) in
  let p := pt [0; 4; PI / 2; 0; 1; 4 * PI; 1; 2; 1 / 2; 0] in
  (exists simp minv, inverts (kn_chart (EVar 4) (EVar 5) (EVar 6) (EVar 7) (EVar 8) (EVar 9)) simp minv (KerrNewman (EVar 4) (EVar 5) (EVar 6) (EVar 7) (EVar 8) (EVar 9))) /\
  mo_sys o = BL /\ valid_spin o /\ kn_chart (EVar 4) (EVar 5) (EVar 6) (EVar 7) (EVar 8) (EVar 9) p /\
  eval (EVar 7) p = sch_rad (eval (EVar 4) p) 1 o /\ eval (EVar 8) p = al_of (eval (EVar 4) p) 1 o /\ eval (EVar 9) p = 0.
Proof.
  cbv zeta. split; [eexists _, _; eapply table_inverts, kn_table; apply param_var; lia|]. split; [reflexivity|]. split; [unfold valid_spin; cbn [mo_a q_val]; lra|].
  assert (P := PI_RGT_0). split.
  { unfold kn_chart, pt, rQsqE, Esq, Epow. cbn [eval nth]. rewrite cos_PI2. split; [split; lra|]. split; [rewrite sin_PI2; lra|]. split; [lra|].
    replace (0 * 0 * (4 * PI) / (4 * PI * 1 * (1 * 1 * 1 * 1))) with 0 by (field; lra). lra. }
  unfold sch_rad, schwarzschild_radius, al_of, pt. cbn [eval nth prim mo_M mo_a q_val]. repeat split; field.
Qed.
(** the charged case of geodesic: Q = 1 *)
Example C108_nonvacuous_charge : let p := pt [0; 4; PI / 2; 0; 1; 4 * PI; 1; 2; 1 / 2; 1] in
  kn_chart (EVar 4) (EVar 5) (EVar 6) (EVar 7) (EVar 8) (EVar 9) p /\ eval (EVar 4) p = 1 /\ eval (EVar 7) p = 2 /\ eval (EVar 8) p = 1 / 2 /\ eval (rQsqE (EVar 4) (EVar 5) (EVar 6) (EVar 9)) p = 1 * 1.
Proof.
  assert (P := PI_RGT_0). cbv zeta. unfold kn_chart, pt, rQsqE, Esq, Epow. cbn [eval nth]. rewrite cos_PI2.
  replace (1 * 1 * (4 * PI) / (4 * PI * 1 * (1 * 1 * 1 * 1))) with 1 by (field; lra).
  split; [split; [split; lra|]; split; [rewrite sin_PI2; lra|]; split; lra|]. repeat split; lra.
Qed.
