(* generated from tools/P/P_Geo.v.in by tools/genp.py: statements only, proofs are references *)
(** Properties C04-C07: metric Jacobian, built-in contravariant metrics, initial 4-momentum
    (einsteinpy.utils.dual._jacobian_g, einsteinpy.geodesic.utils). *)
From Coq Require Import Reals List ZArith Lra Lia.
From Coquelicot Require Import Coquelicot.
From Verif Require Import Base DualModel DualSpec GeoUtilsModel GeoUtilsSpec GeoUtilsProofs.
Open Scope R_scope.

(** C04: every entry of _jacobian_g is the partial derivative, and the result is symmetric *)
Theorem C04_jacobian : 
  forall (g : metricP) (coords : V4) (k : nat),
  (k < 4)%nat -> metric_defined g (q4nth coords) ->
  exists J, jacobian_g g coords (Z.of_nat k) = Ok J
  /\ (forall i j, (i < 4)%nat -> (j < 4)%nat -> mnth J i j = mnth J j i)
  /\ (forall i j, (i <= j)%nat -> (j < 4)%nat ->
  is_derive (fun s => meaning (upd (q4nth coords) k s) (mnth g i j)) (q4nth coords k) (mnth J i j)).
Proof. exact GeoUtilsProofs.jacobian_correct. Qed.
Print Assumptions C04_jacobian.

Theorem C04_diff_g_bad_wrt : forall g coords ix (w : Z),
  (w < 0 \/ 3 < w)%Z -> diff_g g coords ix w = Err ValueError.
Proof. exact GeoUtilsProofs.diff_g_bad_wrt. Qed.
Print Assumptions C04_diff_g_bad_wrt.

Theorem C04_diff_g_bad_arity : forall g coords ix (w : Z),
  length ix <> 2%nat -> diff_g g coords ix w = Err ValueError.
Proof. exact GeoUtilsProofs.diff_g_bad_arity. Qed.
Print Assumptions C04_diff_g_bad_arity.

Theorem C04_jacobian_bad_wrt : forall g coords (w : Z),
  (w < 0 \/ 3 < w)%Z -> jacobian_g g coords w = Err ValueError.
Proof. exact GeoUtilsProofs.jacobian_bad_wrt. Qed.
Print Assumptions C04_jacobian_bad_wrt.

(** the hypothesis metric_defined holds for Kerr wherever Sigma, Delta, sin theta <> 0 *)
Theorem C04_kerr_defined : forall a t r th ph,
  SigmaS r th a <> 0 -> DeltaS r a 0 <> 0 -> sin th <> 0 ->
  metric_defined (kerrE a) (q4nth (mk4 t r th ph)).
Proof. exact GeoUtilsProofs.kerr_defined. Qed.
Print Assumptions C04_kerr_defined.

Theorem C04_kn_defined : forall a Q t r th ph,
  SigmaS r th a <> 0 -> DeltaS r a Q <> 0 -> sin th <> 0 ->
  metric_defined (kerrnewmanE a Q) (q4nth (mk4 t r th ph)).
Proof. exact GeoUtilsProofs.kn_defined. Qed.
Print Assumptions C04_kn_defined.

Theorem C04_sch_defined : forall t r th ph,
  r <> 0 -> r <> 2 -> sin th <> 0 -> metric_defined schE (q4nth (mk4 t r th ph)).
Proof. exact GeoUtilsProofs.sch_defined. Qed.
Print Assumptions C04_sch_defined.


(** C05 *)
Theorem C05_kerrnewman_inverse : 
  forall a Q t r th ph,
  SigmaS r th a <> 0 -> DeltaS r a Q <> 0 -> sin th <> 0 ->
  exists m, metric_at (kerrnewmanE a Q) (mk4 t r th ph) = Ok m /\ inverse_of m (kn_cov a Q r th).
Proof. exact GeoUtilsProofs.kn_metric_inverse. Qed.
Print Assumptions C05_kerrnewman_inverse.

Theorem C05_kerr_inverse : 
  forall a t r th ph,
  SigmaS r th a <> 0 -> DeltaS r a 0 <> 0 -> sin th <> 0 ->
  exists m, metric_at (kerrE a) (mk4 t r th ph) = Ok m /\ inverse_of m (kn_cov a 0 r th).
Proof. exact GeoUtilsProofs.kerr_metric_inverse. Qed.
Print Assumptions C05_kerr_inverse.

Theorem C05_schwarzschild_inverse : 
  forall t r th ph, r <> 0 -> r <> 2 -> sin th <> 0 ->
  exists m, metric_at schE (mk4 t r th ph) = Ok m /\ inverse_of m (sch_cov r th).
Proof. exact GeoUtilsProofs.sch_metric_inverse. Qed.
Print Assumptions C05_schwarzschild_inverse.

Theorem C05_kn_without_charge_is_kerr : forall a t r th ph,
  SigmaS r th a <> 0 -> DeltaS r a 0 <> 0 -> sin th <> 0 ->
  metric_at (kerrnewmanE a 0) (mk4 t r th ph) = metric_at (kerrE a) (mk4 t r th ph).
Proof. exact GeoUtilsProofs.kn_Q0_is_kerr. Qed.
Print Assumptions C05_kn_without_charge_is_kerr.

Theorem C05_kerr_without_spin_is_schwarzschild : forall t r th ph,
  r <> 0 -> r <> 2 -> sin th <> 0 ->
  metric_at (kerrE 0) (mk4 t r th ph) = metric_at schE (mk4 t r th ph).
Proof. exact GeoUtilsProofs.kerr_a0_is_sch. Qed.
Print Assumptions C05_kerr_without_spin_is_schwarzschild.

Example C05_nonvacuous : SigmaS 3 (PI / 2) (1/2) <> 0 /\ DeltaS 3 (1/2) (1/2) <> 0 /\ sin (PI / 2) <> 0.
Proof.
  unfold SigmaS, DeltaS. rewrite cos_PI2, sin_PI2. repeat split; lra.
Qed.

(** C06: outside the horizon _P returns a future-directed momentum on the mass shell *)
Theorem C06_P_kerrnewman : forall a Q t r th ph p1 p2 p3 tl,
  0 < r -> Q * Q <= 2 * r -> 0 < DeltaS r a Q -> sin th <> 0 ->
  exists guu P, metric_at (kerrnewmanE a Q) (mk4 t r th ph) = Ok guu
  /\ P4 (kerrnewmanE a Q) (mk4 t r th ph) p1 p2 p3 tl = Ok P /\ on_shell_future guu P p1 p2 p3 tl.
Proof. exact GeoUtilsProofs.P4_kerrnewman. Qed.
Print Assumptions C06_P_kerrnewman.

Theorem C06_P_kerr : forall a t r th ph p1 p2 p3 tl,
  0 < r -> 0 < DeltaS r a 0 -> sin th <> 0 ->
  exists guu P, metric_at (kerrE a) (mk4 t r th ph) = Ok guu
  /\ P4 (kerrE a) (mk4 t r th ph) p1 p2 p3 tl = Ok P /\ on_shell_future guu P p1 p2 p3 tl.
Proof. exact GeoUtilsProofs.P4_kerr. Qed.
Print Assumptions C06_P_kerr.

Theorem C06_P_schwarzschild : forall t r th ph p1 p2 p3 tl,
  2 < r -> sin th <> 0 ->
  exists guu P, metric_at schE (mk4 t r th ph) = Ok guu
  /\ P4 schE (mk4 t r th ph) p1 p2 p3 tl = Ok P /\ on_shell_future guu P p1 p2 p3 tl.
Proof. exact GeoUtilsProofs.P4_sch. Qed.
Print Assumptions C06_P_schwarzschild.

(** any metric whose only off-diagonal entry is g03 *)
Theorem C06_P_block_metric : forall g p1 p2 p3 tl P,
  symm g -> sparse g -> P_of_guu g p1 p2 p3 tl = Ok P ->
  quad g P = - b2R tl /\ c1 P = p1 /\ c2 P = p2 /\ c3 P = p3 /\ 0 <= c0 (mv g P)
  /\ (0 < discr g p1 p2 p3 tl -> 0 < c0 (mv g P)).
Proof. exact GeoUtilsProofs.P_on_shell_sparse. Qed.
Print Assumptions C06_P_block_metric.

Theorem C06_P_fails_iff : forall g p1 p2 p3 tl,
  (exists e, P_of_guu g p1 p2 p3 tl = Err e) <-> (discr g p1 p2 p3 tl < 0 \/ mnth g 0 0 = 0).
Proof. exact GeoUtilsProofs.P_fails_iff. Qed.
Print Assumptions C06_P_fails_iff.

Example C06_nonvacuous : 0 < 3 /\ (1/2) * (1/2) <= 2 * 3 /\ 0 < DeltaS 3 (1/2) (1/2) /\ sin (PI / 2) <> 0.
Proof. unfold DeltaS. rewrite sin_PI2. repeat split; lra. Qed.

(** C07: for a general symmetric metric the shell equation is missed by exactly the ignored cross terms *)
Theorem C07_P_residual_partial : forall g p1 p2 p3 tl,
  symm g -> mnth g 0 0 <> 0 -> 0 <= discr g p1 p2 p3 tl ->
  exists P, P_of_guu g p1 p2 p3 tl = Ok P /\ c1 P = p1 /\ c2 P = p2 /\ c3 P = p3
  /\ quad g P = - b2R tl + ignored g P.
Proof. exact GeoUtilsProofs.P_residual. Qed.
Print Assumptions C07_P_residual_partial.

(** C07 as stated is false *)
Theorem C07_P_user_metric_refuted : 
  exists (g : metricP) q guu P, metric_at g q = Ok guu /\ symm guu
  /\ P4 g q 1 0 1 true = Ok P /\ quad guu P <> - 1.
Proof. exact GeoUtilsProofs.P_user_refuted. Qed.
Print Assumptions C07_P_user_metric_refuted.

