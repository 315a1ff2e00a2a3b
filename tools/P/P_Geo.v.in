(** Properties C04-C07: metric Jacobian, built-in contravariant metrics, initial 4-momentum
    (einsteinpy.utils.dual._jacobian_g, einsteinpy.geodesic.utils). *)
From Coq Require Import Reals List ZArith Lra Lia.
From Coquelicot Require Import Coquelicot.
From Verif Require Import Base DualModel DualSpec GeoUtilsModel GeoUtilsSpec GeoUtilsProofs.
Open Scope R_scope.

@thm C04_jacobian GeoUtilsProofs.jacobian_correct -- C04: every entry of _jacobian_g is the partial derivative, and the result is symmetric
@thm C04_diff_g_bad_wrt GeoUtilsProofs.diff_g_bad_wrt
@thm C04_diff_g_bad_arity GeoUtilsProofs.diff_g_bad_arity
@thm C04_jacobian_bad_wrt GeoUtilsProofs.jacobian_bad_wrt
@thm C04_kerr_defined GeoUtilsProofs.kerr_defined -- the hypothesis metric_defined holds for Kerr wherever Sigma, Delta, sin theta <> 0
@thm C04_kn_defined GeoUtilsProofs.kn_defined
@thm C04_sch_defined GeoUtilsProofs.sch_defined

@thm C05_kerrnewman_inverse GeoUtilsProofs.kn_metric_inverse -- C05
@thm C05_kerr_inverse GeoUtilsProofs.kerr_metric_inverse
@thm C05_schwarzschild_inverse GeoUtilsProofs.sch_metric_inverse
@thm C05_kn_without_charge_is_kerr GeoUtilsProofs.kn_Q0_is_kerr
@thm C05_kerr_without_spin_is_schwarzschild GeoUtilsProofs.kerr_a0_is_sch
Example C05_nonvacuous : SigmaS 3 (PI / 2) (1/2) <> 0 /\ DeltaS 3 (1/2) (1/2) <> 0 /\ sin (PI / 2) <> 0.
Proof.
  unfold SigmaS, DeltaS. rewrite cos_PI2, sin_PI2. repeat split; lra.
Qed.

@thm C06_P_kerrnewman GeoUtilsProofs.P4_kerrnewman -- C06: outside the horizon _P returns a future-directed momentum on the mass shell
@thm C06_P_kerr GeoUtilsProofs.P4_kerr
@thm C06_P_schwarzschild GeoUtilsProofs.P4_sch
@thm C06_P_block_metric GeoUtilsProofs.P_on_shell_sparse -- any metric whose only off-diagonal entry is g03
@thm C06_P_fails_iff GeoUtilsProofs.P_fails_iff
Example C06_nonvacuous : 0 < 3 /\ (1/2) * (1/2) <= 2 * 3 /\ 0 < DeltaS 3 (1/2) (1/2) /\ sin (PI / 2) <> 0.
Proof. unfold DeltaS. rewrite sin_PI2. repeat split; lra. Qed.

@thm C07_P_residual_partial GeoUtilsProofs.P_residual -- C07: for a general symmetric metric the shell equation is missed by exactly the ignored cross terms
@thm C07_P_user_metric_refuted GeoUtilsProofs.P_user_refuted -- C07 as stated is false
