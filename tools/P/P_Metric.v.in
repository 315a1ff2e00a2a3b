(** Properties C28, C32-C43 and C95: the metric classes of einsteinpy.metric in SI units. *)
From Coq Require Import Reals List ZArith Lra Lia Bool.
From Coquelicot Require Import Coquelicot.
From Verif Require Import Base Calc GeoUtilsModel GeoUtilsProofs CoordModel CoordProofs2 ConvModel ConvProofs MetricModel MetricSpec.
From Verif Require Import MetricProofs MetricProofs2 MetricProofs3 MetricProofs4 MetricProofs5 MetricProofs6 MetricProofs7 MetricProofs8 MetricKilling.
Import ListNotations.
Open Scope R_scope.

@thm C28_radius_units_refuted MetricProofs6.radius_units_refuted -- C28 as stated is false: 1 tonne and 1000 kg give different radii
@thm C28_radius_correct_iff MetricProofs6.radius_si_iff -- the radius is right exactly for zero mass or SI units
@thm C28_si_units_same MetricProofs6.si_units_same
Example C28_nonvacuous : same_arg (NQty (mkqty 2 1 DMass)) (NQty (mkqty 2 1 DMass)) /\ schwarzschild_radius 1 1 (NQty (mkqty 2 1 DMass)) = 4.
Proof. split; [split; reflexivity|]. unfold schwarzschild_radius; cbn [prim q_val]. field. Qed.

@thm C32_alpha_error_iff MetricProofs6.alpha_error_iff -- C32: ValueError exactly outside [0,1]
@thm C32_alpha_value MetricProofs6.alpha_value
@thm C32_sigma_rho_delta MetricProofs6.sigma_rho_delta
@thm C32_helpers_invalid MetricProofs6.helpers_invalid
Example C32_nonvacuous : bm_alpha 1 1 (NFloat 4) (NFloat (1/2)) = Ok (1/2 * (1 * 4 / 1 ^ 2)) /\ bm_alpha 1 1 (NFloat 4) (NFloat 2) = Err ValueError.
Proof. split; [apply bm_alpha_valid; cbn [prim]; lra|apply C32_alpha_error_iff; cbn [prim]; lra]. Qed.

@thm C33_kerr_singularities MetricProofs6.sing_bl -- C33: horizons = roots of delta, ergospheres = zeros of g_00's numerator, ordered
@thm C33_kerr_metric_finite_iff MetricProofs6.sing_kerr_metric
@thm C33_schwarzschild MetricProofs6.sing_sch
@thm C33_coordinate_error_iff MetricProofs6.sing_wrong_system
Example C33_nonvacuous : black_hole 1 1 1 (wit 1 1 NKerrNewman (3/5) (4/5) 0).
Proof.
  split; [unfold valid_spin, wit; cbn [mo_a q_val]; lra|]. rewrite wit_rs, wit_al by lra. unfold charge_radius2, wit; cbn [mo_Q q_val]. lra.
Qed.

@thm C34_connection MetricProofs2.sch_connection -- C34: tabulated symbols = Levi-Civita connection of metric_covariant
@thm C34_defined_iff MetricProofs6.sch_christoffels_defined
@thm C34_wrong_system MetricProofs6.sch_wrong_system
Example C34_nonvacuous : exists ch, sch_christoffels 1 1 (mkmobj NSchwarzschild Sph (mkqty 1 1 DMass) (mkqty 0 1 DOne) (mkqty 0 1 DCharge) (mkqty 0 1 DOne)) (mkQ4 0 4 (PI / 2) 0) = Ok ch.
Proof.
  apply C34_defined_iff. cbn [mo_sys c1 c2]. unfold sch_rad, schwarzschild_radius. cbn [prim mo_M q_val]. rewrite sin_PI2. repeat split; lra.
Qed.

@thm C35_kerr_dgdx_refuted MetricProofs5.kerr_dgdx_refuted -- C35 as stated is false: the [1,3,3] entry has a wrong sign
@thm C35_kerr_dgdx_exact MetricProofs4.kerr_dgdx_exact -- all other entries are right; the error of [1,3,3] in closed form

@thm C36_kn_dgdx_gradient MetricProofs4.kn_dgdx_gradient -- C36
@thm C36_gradient_is_partials MetricSpec.gradient_partials
@thm C36_kn_connection MetricProofs4.kn_connection
Example C36_nonvacuous : bl_dom 1 1 (wit 1 1 NKerrNewman (1/2) 1 0) (mkQ4 0 4 (PI / 2) 0).
Proof.
  split; [reflexivity|]. split; [unfold valid_spin, wit; cbn [mo_a q_val]; lra|]. rewrite wit_al, wit_rs by lra. unfold sg_of, dl_of. cbn [c1 c2].
  rewrite cos_PI2. split; lra.
Qed.

@thm C37_kn_metric_refuted MetricProofs7.kn_metric_refuted -- C37 as stated is false: the charge never enters the metric
@thm C37_charged_always_wrong MetricProofs7.kn_charged_wrong
@thm C37_charge_error MetricProofs7.kn_charge_error
@thm C37_charge_ignored MetricProofs7.kn_ignores_charge
@thm C37_uncharged_textbook MetricProofs7.kn_is_textbook_uncharged
@thm C37_finite_at_reported_horizon MetricProofs7.kn_finite_at_horizon

@thm C38_sparse_complete MetricProofs3.sparse_complete -- C38: the sparse loops compute the full contraction
@thm C38_list_exact MetricProofs3.nonzero_list_exact
@thm C38_list_sound MetricProofs3.nonzero_list_sound
@thm C38_kerr_blocks MetricProofs4.kerr_dg_block
@thm C38_kn_blocks MetricProofs4.kn_dg_block
Example C38_nonvacuous : block_contra (kn_g 1 (1/2) 4 2 3 1) /\ block_grad (kn_dg 1 2 (1/2) 4 2 3 1).
Proof.
  split; [|apply kn_dg_block]. intros i j Hi Hj. idx4 i Hi; (idx4 j Hj); cbv [blk2 Nat.eqb orb andb]; intros H; try discriminate; reflexivity.
Qed.

@thm C39_schwarzschild MetricProofs5.sch_f_vec_spec -- C39
@thm C39_kerr MetricProofs5.kerr_f_vec_spec
@thm C39_kerr_newman MetricProofs5.kn_f_vec_spec
@thm C39_kerr_newman_uncharged MetricProofs5.kn_f_vec_uncharged
@thm C39_wrong_system MetricProofs6.bl_wrong_system

@thm C40_schwarzschild MetricProofs5.sch_norm_constant -- C40
@thm C40_kerr_newman MetricProofs5.kn_norm_constant
@thm C40_kerr_drift MetricProofs5.kerr_norm_drift
@thm C40_kerr_refuted MetricProofs5.kerr_norm_refuted

@thm C41_antisymmetric MetricProofs7.em_antisym -- C41
@thm C41_contra_antisymmetric MetricProofs7.em_contra_antisym
@thm C41_exterior_derivative_exact MetricProofs7.em_tensor_exact -- the electric components are dA, the (1,3) and (2,3) components are -dA
@thm C41_exterior_derivative_partial MetricProofs7.em_tensor_partial
@thm C41_exterior_derivative_refuted MetricProofs7.em_tensor_refuted
@thm C41_gradient_unique MetricProofs7.vgradient_unique

@thm C42_drift MetricProofs7.kn_norm_drift -- C42: exact rate of change of the norm of a charged particle
@thm C42_lorentz_refuted MetricProofs8.kn_lorentz_refuted
@thm C42_textbook_force_orthogonal MetricProofs7.lorentz_force_orthogonal -- the contraction F^ij g_jk v^k would preserve it

@thm C43_perturbation MetricProofs8.base_cov_spec -- C43
@thm C43_inverse_iff MetricProofs8.contravariant_inverse
@thm C43_error MetricProofs8.contravariant_error
@thm C43_symmetric MetricProofs8.si_metrics_symmetric
@thm C43_contra_symmetric MetricProofs8.contra_symmetric
@thm C43_kerr_defined_iff MetricProofs8.kerr_contra_defined
Example C43_nonvacuous : is_inverse (diag4 2 (-1) (-1) (-1)) (diag4 (/2) (/-1) (/-1) (/-1)).
Proof. apply diag4_inv; lra. Qed.

(** C95. [lowered cov p w mu s] is sum_j g_mu,j(p s) w^j(s): mu = 0 the energy, mu = 3 the axial angular momentum, up to constants. *)
@thm C95_schwarzschild MetricKilling.sch_lowered_constant -- C95
@thm C95_kerr_newman_uncharged_particle MetricKilling.kn_lowered_constant
@thm C95_kerr_energy MetricKilling.kerr_energy_constant
@thm C95_kerr_rate MetricKilling.kerr_lowered_drift -- the exact rate of change for Kerr: the angular momentum drifts
@thm C95_kerr_angular_momentum_refuted MetricKilling.kerr_momentum_refuted
(** the circular orbit at r = 4M *)
Example C95_nonvacuous : let o := mkmobj NSchwarzschild Sph (mkqty 1 1 DMass) (mkqty 0 1 DOne) (mkqty 0 1 DCharge) (mkqty 0 1 DOne) in
  let p := fun s => mkQ4 (8 * s) 4 (PI / 2) s in let w := fun _ : R => mkQ4 8 0 0 1 in
  (forall t, exists acc, has_velocity p t (w t) /\ sch_f_vec 1 1 o (p t) (w t) = Ok (w t, acc) /\ has_velocity w t acc) /\
  lowered (sch_cov 1 1 o) p w 3 0 <> 0.
Proof.
  cbv zeta. set (o := mkmobj _ _ _ _ _ _). assert (Hr : sch_rad 1 1 o = 2) by (unfold sch_rad, schwarzschild_radius, o; cbn [prim mo_M q_val]; field).
  split.
  - intros t. exists (mkQ4 0 0 0 0). split; [|split].
    + intros k Hk. idx4 k Hk; cbn [q4nth c0 c1 c2 c3]; auto_derive; (exact I || ring).
    + unfold sch_f_vec, sch_christoffels. change (mo_sys o) with Sph. cbv iota. cbn [c1 c2]. rewrite Hr, sin_PI2.
      rewrite finite_if_ok by (repeat constructor; lra). cbn [bindR]. apply f_equal, f_equal. unfold sch_accel. cbn [c0 c1 c2 c3].
      assert (E1 : sch_ch 1 2 4 (PI / 2) 1%nat 0%nat 0%nat * 64 + sch_ch 1 2 4 (PI / 2) 1%nat 3%nat 3%nat = 0).
      { unfold sch_ch; cbn. rewrite sin_PI2. field. }
      assert (E2 : sch_ch 1 2 4 (PI / 2) 2%nat 3%nat 3%nat = 0).
      { unfold sch_ch; cbn. rewrite cos_PI2. field. }
      f_equal; try ring; [|rewrite E2; ring]. transitivity (-1 * (sch_ch 1 2 4 (PI / 2) 1%nat 0%nat 0%nat * 64 + sch_ch 1 2 4 (PI / 2) 1%nat 3%nat 3%nat)); [ring|rewrite E1; ring].
    + intros k Hk. idx4 k Hk; cbn [q4nth c0 c1 c2 c3]; auto_derive; (exact I || ring).
  - unfold lowered, sch_cov. change (mo_sys o) with Sph. cbv iota. cbn [c1 c2]. rewrite Hr, finite_if_ok by (repeat constructor; lra).
    unfold sum4, entry, sch_g. cbn [q4nth mnth c0 c1 c2 c3]. rewrite sin_PI2. cbn. lra.
Qed.
