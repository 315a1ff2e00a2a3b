(** Properties C61-C65 and C79-C82: the predefined metrics of einsteinpy.symbolic.predefined.
    Coordinates are the symbols 0..3; a parameter ([param e]) is any expression defined everywhere that does not depend on them.
    [inverts U simp minv G]: the oracle behind sympy's simplify and Matrix.inv is correct and finds an inverse of G on the chart U.
    [has_riemann], [has_ricci], [has_scalar]: the value at every point of U of what RiemannCurvatureTensor.from_metric,
    RicciTensor.from_metric and RicciScalar.from_metric return for the MetricTensor with entries G. *)
From Coq Require Import String Ascii Reals List Arith Lia Lra.
From Verif Require Import Base SymAlg SymModel ExprModel PredefModel PredefBridge PredefProofs PredefProofs2 PredefKerr PredefDiag PredefDiag2 PredefKN PredefFinal PredefSpecial.
Import ListNotations.
Local Open Scope R_scope.

@thm C61_entries PredefFinal.entries -- the MetricTensor's entries are the matrix's
@thm C61_minkowski_flat PredefFinal.mink_cart_flat -- C61
@thm C61_minkowski_polar_flat PredefFinal.mink_polar_flat
@thm C61_ads_static_einstein PredefFinal.ads_static_einstein
@thm C61_ads_einstein PredefFinal.ads_einstein
Ltac inh := try exact I; try apply table_inverts; try (apply param_var; lia); try apply param_const.
Lemma half_pi_pt : sin (PI / 2) <> 0. Proof. rewrite sin_PI2. lra. Qed.
Example C61_nonvacuous : (exists simp minv, inverts (mp_chart (EVar 4)) simp minv (MinkowskiPolar (EVar 4))) /\ mp_chart (EVar 4) (pt [0; 2; PI / 2; 0; 3]) /\
  (exists simp minv, inverts adc_chart simp minv AntiDeSitter) /\ adc_chart (pt [0; 2; PI / 2; 0]).
Proof.
  split; [|split; [|split]].
  - eexists _, _. eapply table_inverts, mp_table. apply param_var. lia.
  - unfold mp_chart, pt. cbn [eval nth]. split; [lra|]. split; [lra|apply half_pi_pt].
  - eexists _, _. apply (table_inverts _ _ _ _ adc_table).
  - unfold adc_chart, pt. cbn [nth]. rewrite cos_0. split; [lra|]. split; [lra|apply half_pi_pt].
Qed.

@thm C62_schwarzschild_vacuum PredefFinal.sch_vacuum -- C62
Example C62_nonvacuous : (exists simp minv, inverts (sch_chart (EVar 4) (EVar 5)) simp minv (Schwarzschild (EVar 4) (EVar 5))) /\ param (EVar 4) /\ param (EVar 5) /\
  sch_chart (EVar 4) (EVar 5) (pt [0; 10; PI / 2; 0; 3; 2]).
Proof.
  split; [|split; [|split]]; try (apply param_var; lia).
  - eexists _, _. eapply table_inverts, sch_table; apply param_var; lia.
  - unfold sch_chart, pt. cbn [eval nth]. split; [split; lra|]. split; [lra|apply half_pi_pt].
Qed.

@thm C63_coded PredefFinal.ds_coded -- C63: the Ricci tensor of the line element as coded
@thm C63_documented PredefFinal.ds_intended -- the documented line element, with t the time coordinate, would satisfy the property
@thm C63_de_sitter_refuted PredefFinal.ds_refuted -- for no function k of the point is Ricci = k g
Example C63_nonvacuous : (exists simp minv, inverts (ds_chart (EVar 4)) simp minv (DeSitter (EVar 4))) /\ ds_chart (EVar 4) (pt [0; 0; 0; 0; 3]).
Proof.
  split; [|unfold ds_chart, pt; cbn [eval nth]; lra].
  eexists _, _. eapply table_inverts, ds_table. apply param_var. lia.
Qed.

@thm C64_kerr_newman_kerr PredefSpecial.kn_kerr -- C64
@thm C64_kerr_schwarzschild PredefSpecial.kerr_sch
@thm C64_rn_schwarzschild PredefSpecial.rn_sch
@thm C64_kerr_newman_rn PredefSpecial.kn_rn
@thm C64_symmetric PredefSpecial.all_symmetric
@thm C64_barriola_minkowski PredefSpecial.barriola_flat
@thm C64_ernst_schwarzschild PredefSpecial.ernst_sch -- up to signature, geometric units
@thm C64_jnw_components PredefSpecial.jnw_gam1
@thm C64_jnw_schwarzschild PredefSpecial.jnw_sch
@thm C64_jnw_refuted PredefSpecial.jnw_refuted -- gamma = 1, c^2 <> 1: neither Schwarzschild nor its negative
Example C64_nonvacuous : let p := pt [0; 10; PI / 2; 0; 3; 1] in let c := EVar 4 in let M := EVar 5 in
  eval c p <> 0 /\ eval c p ^ 2 <> 1 /\ p 1%nat <> 0 /\ 0 < 1 - eval (jw_rs c E1 M) p / p 1%nat /\ eval E1 p = 1.
Proof. unfold pt, jw_rs, E1, Esq. cbn [eval nth]. split; [lra|]. split; [lra|]. split; [lra|]. split; [|reflexivity]. lra. Qed.

@thm C65_on_axis PredefSpecial.warp_axis -- C65
@thm C65_exactly_where PredefSpecial.warp_iff
@thm C65_metric PredefSpecial.warp_entries -- the radius enters through the shape function
@thm C65_shape_function PredefSpecial.warp_shape_is
@thm C65_one_at_the_ship PredefSpecial.warp_centre
@thm C65_radius_refuted PredefSpecial.warp_refuted

@thm C79_kerr_vacuum PredefFinal.kerr_vacuum -- C79
Example C79_nonvacuous : (exists simp minv, inverts (kerr_chart (EVar 4) (EVar 5) (EVar 6)) simp minv (Kerr (EVar 4) (EVar 5) (EVar 6))) /\
  kerr_chart (EVar 4) (EVar 5) (EVar 6) (pt [0; 10; PI / 2; 0; 3; 2; 1]).
Proof.
  split; [eexists _, _; eapply table_inverts, kerr_table; apply param_var; lia|].
  unfold kerr_chart, pt. cbn [eval nth]. rewrite cos_PI2. split; [split; [lra|apply half_pi_pt]|]. split; lra.
Qed.

@thm C80_rn_ricci PredefFinal.rn_electrovac -- C80
@thm C80_rn_scalar PredefFinal.rn_scalar
@thm C80_kn_ricci PredefFinal.kn_electrovac
@thm C80_kn_scalar PredefFinal.kn_scalar
@thm C80_kn_rainich PredefFinal.kn_rainich -- the mixed Ricci tensor squares to a multiple of the identity: the algebraic mark of an electromagnetic source
Example C80_nonvacuous : (exists simp minv, inverts (kn_chart (EVar 4) (EVar 5) (EVar 6) (EVar 7) (EVar 8) (EVar 9)) simp minv (KerrNewman (EVar 4) (EVar 5) (EVar 6) (EVar 7) (EVar 8) (EVar 9))) /\
  kn_chart (EVar 4) (EVar 5) (EVar 6) (EVar 7) (EVar 8) (EVar 9) (pt [0; 10; PI / 2; 0; 1; 4 * PI; 1; 2; 1; 1]).
Proof.
  split; [eexists _, _; eapply table_inverts, kn_table; apply param_var; lia|].
  assert (P := PI_RGT_0). unfold kn_chart, pt, rQsqE, Esq, Epow. cbn [eval nth]. rewrite cos_PI2. split; [split; lra|]. split; [apply half_pi_pt|]. split; [lra|].
  replace (1 * 1 * (4 * PI) / (4 * PI * 1 * (1 * 1 * 1 * 1))) with 1 by (field; lra). lra.
Qed.

@thm C81_barriola PredefFinal.barriola -- C81
@thm C81_bertotti_kasner PredefFinal.bertotti
@thm C81_godel PredefFinal.godel
@thm C81_davidson PredefFinal.davidson
@thm C81_cmetric PredefFinal.cmetric
@thm C81_ernst_scalar PredefFinal.ernst_scalar
@thm C81_ernst_pairs PredefFinal.ernst_pairs
Example C81_nonvacuous :
  ((exists simp minv, inverts (bv_chart (EVar 4) (EVar 5)) simp minv (BarriolaVilekin (EVar 4) (EVar 5))) /\ bv_chart (EVar 4) (EVar 5) (pt [0; 1; PI / 2; 0; 3; 2])) /\
  ((exists simp minv, inverts (bk_chart (EVar 4) (EConst 2)) simp minv (BertottiKasner (EVar 4) (EConst 2))) /\ bk_chart (EVar 4) (EConst 2) (pt [0; 1; PI / 2; 0; 3])) /\
  ((exists simp minv, inverts gd_chart simp minv (Godel (EVar 4))) /\ gd_chart (pt [])) /\
  ((exists simp minv, inverts dv_chart simp minv Davidson) /\ dv_chart (pt [1; 1])) /\
  ((exists simp minv, inverts (er_chart (EVar 4) (EVar 5)) simp minv (Ernst (EVar 4) (EVar 5))) /\ er_chart (EVar 4) (EVar 5) (pt [0; 10; PI / 2; 0; 1; 1])) /\
  (let f := cm_f (EVar 4) (EVar 5) (EVar 6) (EVar 7) in let h := cm_h (EVar 4) (EVar 5) (EVar 6) (EVar 7) in
   (exists simp minv, inverts (cm_chart f h) simp minv (CMetric f h)) /\ cm_chart f h (pt [0; 1; 1; 0; 1; 0; 0; 1/2])).
Proof.
  split; [|split; [|split; [|split; [|split]]]].
  - split; [eexists _, _; eapply table_inverts, bv_table; apply param_var; lia|]. unfold bv_chart, pt. cbn [eval nth]. split; [split; lra|]. split; [lra|apply half_pi_pt].
  - split; [eexists _, _; eapply table_inverts, bk_table; [apply param_var; lia|apply param_const]|]. unfold bk_chart, pt. cbn [eval nth]. split; [lra|]. split; [lra|apply half_pi_pt].
  - split; [eexists _, _; eapply table_inverts, gd_table; apply param_var; lia|exact I].
  - split; [eexists _, _; apply (table_inverts _ _ _ _ dv_table')|]. unfold dv_chart, pt. cbn [nth]. lra.
  - split; [eexists _, _; eapply table_inverts, er_table; apply param_var; lia|]. unfold er_chart, pt. cbn [eval nth]. split; [lra|]. split; [lra|apply half_pi_pt].
  - cbv zeta. split; [eexists _, _; eapply table_inverts, cm_table'; apply param_var; lia|].
    unfold cm_chart, cm_f, cm_h, cubic, Esq, X, pt. cbn [eval nth]. lra.
Qed.

@thm C82_jnw_ricci PredefFinal.jnw -- C82: the Ricci tensor of the line element as coded
@thm C82_jnw_scalar_field PredefFinal.jnw_c1 -- with c^2 = 1 it is that of a static scalar field
@thm C82_jnw_refuted PredefFinal.jnw_not -- with c^2 <> 1 the angular components do not vanish
Example C82_nonvacuous : (exists simp minv, inverts (jw_chart (EVar 4) (EVar 5) (EVar 6) (EVar 7)) simp minv (JanisNewmanWinicour (EVar 4) (EVar 5) (EVar 6) (EVar 7))) /\
  jw_chart (EVar 4) (EVar 5) (EVar 6) (EVar 7) (pt [0; 10; PI / 2; 0; 3; 1; 1/2; 1]).
Proof.
  split; [eexists _, _; eapply table_inverts, jw_table; apply param_var; lia|].
  unfold jw_chart, jw_rs, Esq, pt. cbn [eval nth]. split; [split; lra|]. split; [lra|]. split; [lra|apply half_pi_pt].
Qed.
