From Coq Require Import Reals List ZArith Lra Lia Bool.
From Coquelicot Require Import Coquelicot.
From Verif Require Import Base Calc GeoUtilsModel GeoUtilsProofs CoordModel CoordProofs CoordProofs2 CoordProofs3 CoordProofs4.
Import ListNotations.
Open Scope R_scope.

Lemma D_bl_w (x y z : R -> R) (al t0 vx vy vz : R) :
  is_derive x t0 vx -> is_derive y t0 vy -> is_derive z t0 vz ->
  is_derive (fun s => bl_w (x s) (y s) (z s) al) t0 (2 * (x t0 * vx + y t0 * vy + z t0 * vz)).
Proof. intros. unfold bl_w. D_auto. simpl INR. simpl pred. ring. Qed.

Lemma D_bl_r (x y z : R -> R) (al t0 vx vy vz : R) :
  is_derive x t0 vx -> is_derive y t0 vy -> is_derive z t0 vz -> 0 < bl_r (x t0) (y t0) (z t0) al ->
  let w := bl_w (x t0) (y t0) (z t0) al in let r := bl_r (x t0) (y t0) (z t0) al in
  let dw := 2 * (x t0 * vx + y t0 * vy + z t0 * vz) in
  is_derive (fun s => bl_r (x s) (y s) (z s) al) t0
    (1 / (2 * r) * (dw / 2 + (w * dw + 4 * al ^ 2 * z t0 * vz) / (2 * sqrt (w ^ 2 + 4 * al ^ 2 * z t0 ^ 2)))).
Proof.
  intros Dx Dy Dz Hr. cbv zeta. assert (Dw := D_bl_w x y z al t0 vx vy vz Dx Dy Dz).
  assert (HS := bl_S_pos _ _ _ _ Hr).
  assert (HS2 : 0 < bl_w (x t0) (y t0) (z t0) al ^ 2 + 4 * al ^ 2 * z t0 ^ 2).
  { rewrite <- bl_S_sq. nra. }
  assert (Q := bl_r_sq (x t0) (y t0) (z t0) al).
  unfold bl_S in HS, Q.
  assert (HQ : 0 < / 2 * (bl_w (x t0) (y t0) (z t0) al + sqrt (bl_w (x t0) (y t0) (z t0) al ^ 2 + 4 * al ^ 2 * z t0 ^ 2))).
  { rewrite <- Q. nra. }
  unfold bl_r at 1. 
  eapply D_eq.
  - apply D_sqrt; [exact HQ|].
    apply D_mult; [apply D_const|]. apply D_plus; [exact Dw|]. apply D_sqrt; [exact HS2|].
    apply D_plus; [apply (D_pow (fun s => bl_w (x s) (y s) (z s) al)); exact Dw|].
    apply D_mult; [apply D_const|]. apply (D_pow z). exact Dz.
  - cbv beta. change (sqrt (/ 2 * (bl_w (x t0) (y t0) (z t0) al + sqrt (bl_w (x t0) (y t0) (z t0) al ^ 2 + 4 * al ^ 2 * z t0 ^ 2))))
      with (bl_r (x t0) (y t0) (z t0) al).
    simpl INR. simpl pred. field. split; lra.
Qed.

(** ** C23: Cartesian -> Boyer-Lindquist velocities *)
Lemma cart_bl_velocity (x y z : R -> R) (al t0 vx vy vz : R) :
  is_derive x t0 vx -> is_derive y t0 vy -> is_derive z t0 vz ->
  0 < bl_r (x t0) (y t0) (z t0) al -> x t0 <> 0 ->
  exists v (P : R -> V4), cart_to_bl_vel (x t0) (y t0) (z t0) al vx vy vz = Ok v
    /\ locally t0 (fun s => cart_to_bl s (x s) (y s) (z s) al = Ok (P s))
    /\ is_derive (fun s => c1 (P s)) t0 (v1 v)
    /\ is_derive (fun s => c2 (P s)) t0 (v2 v)
    /\ (exists psi, same_angle_near t0 psi (fun s => c3 (P s)) /\ is_derive psi t0 (v3 v))
    /\ (0 < x t0 \/ y t0 <> 0 -> is_derive (fun s => c3 (P s)) t0 (v3 v)).
Proof.
  intros Dx Dy Dz Hr Hx.
  assert (Dr := D_bl_r x y z al t0 vx vy vz Dx Dy Dz Hr). cbv zeta in Dr.
  assert (HS := bl_S_pos _ _ _ _ Hr). unfold bl_S in HS.
  assert (Hz := bl_z_lt_r (x t0) (y t0) (z t0) al Hr ltac:(tauto)).
  assert (Bz := sq_lt_bounds _ _ Hr Hz).
  unfold cart_to_bl_vel.
  rewrite (np_div_ok 1 (2 * _)) by lra. cbn [bindR].
  rewrite (np_div_ok _ (2 * sqrt _)) by lra. cbn [bindR].
  rewrite (np_div_ok (z t0)) by lra. cbn [bindR].
  assert (P1 : 0 < 1 - z t0 / bl_r (x t0) (y t0) (z t0) al * (z t0 / bl_r (x t0) (y t0) (z t0) al)) by nra.
  assert (P2 := sqrt_lt_R0 _ P1).
  rewrite np_sqrt_ok by lra. cbn [bindR]. rewrite (np_div_ok (-1)) by lra. cbn [bindR].
  assert (P3 : bl_r (x t0) (y t0) (z t0) al ^ 2 <> 0) by nra.
  rewrite (np_div_ok _ (bl_r _ _ _ _ ^ 2)) by assumption. cbn [bindR].
  rewrite (np_div_ok (y t0)) by assumption. cbn [bindR].
  assert (P4 : 1 + y t0 / x t0 * (y t0 / x t0) <> 0) by nra.
  rewrite (np_div_ok 1) by exact P4. cbn [bindR].
  assert (P5 : x t0 ^ 2 <> 0) by (simpl; rewrite Rmult_1_r; apply sq_nz; exact Hx).
  rewrite (np_div_ok _ (x t0 ^ 2)) by exact P5. cbn [bindR].
  do 2 eexists. split; [reflexivity|].
  split.
  { assert (L : locally t0 (fun s => 0 < bl_r (x s) (y s) (z s) al)).
    { apply (locally_positive (fun s => bl_r (x s) (y s) (z s) al)); [eapply D_continuous; exact Dr|exact Hr]. }
    revert L. apply filter_imp. intros s Hs. rewrite cart_to_bl_ok by exact Hs. reflexivity. }
  cbn [c0 c1 c2 c3 v1 v2 v3].
  assert (N : x t0 * x t0 + y t0 * y t0 <> 0) by nra.
  split; [exact Dr|]. split; [|split].
  - eapply D_eq. apply (D_acos (fun s => z s / bl_r (x s) (y s) (z s) al)); [exact Bz|].
    apply (D_div z (fun s => bl_r (x s) (y s) (z s) al)); [lra|exact Dz|exact Dr].
    cbv beta. field. repeat split; lra.
  - destruct (atan2_lift y x t0 vy vx Dy Dx ltac:(tauto)) as (psi & L & D). exists psi. split; [exact L|].
    eapply D_eq; [exact D|]. field. repeat split; assumption.
  - intros Hc. eapply D_eq; [apply (D_atan2 y x t0 vy vx Dy Dx Hc)|]. field. repeat split; assumption.
Qed.

(** ** C24 *)
Lemma bl_vel_x0 y z al vx vy vz : cart_to_bl_vel 0 y z al vx vy vz = Err NonFinite.
Proof.
  unfold cart_to_bl_vel, np_div, np_sqrt.
  repeat (match goal with |- context [Req_EM_T ?a ?b] => destruct (Req_EM_T a b); cbn [bindR] end; try reflexivity; try tauto).
  all: repeat (match goal with |- context [Rle_dec ?a ?b] => destruct (Rle_dec a b); cbn [bindR] end; try reflexivity; try tauto).
  all: repeat (match goal with |- context [Req_EM_T ?a ?b] => destruct (Req_EM_T a b); cbn [bindR] end; try reflexivity; try tauto).
Qed.
Lemma bl_vphi_refuted : exists x y z al vx vy vz,
  (x <> 0 \/ y <> 0) /\ 0 < bl_r x y z al /\ cart_to_bl_vel x y z al vx vy vz = Err NonFinite
  /\ (exists v, cart_to_sph_vel x y z vx vy vz = Ok v).
Proof.
  exists 0, 2, 0, 1, 1, 0, 0. split; [right; lra|]. split; [|split; [apply bl_vel_x0|]].
  - destruct (bl_r_nonneg 0 2 0 1) as [H|H]; [exact H|]. symmetry in H. apply bl_r_zero_iff in H. lra.
  - unfold cart_to_sph_vel.
    assert (0 < sqrt (0 ^ 2 + 2 ^ 2 + 0 ^ 2)) by (apply sqrt_lt_R0; lra).
    assert (0 < sqrt (0 ^ 2 + 2 ^ 2)) by (apply sqrt_lt_R0; lra).
    rewrite !np_div_ok by nra. eexists; reflexivity.
Qed.
(** the azimuthal velocity is available exactly when x <> 0 (given r > 0 and off-axis) *)
Lemma bl_vel_available_iff x y z al vx vy vz : 0 < bl_r x y z al -> x <> 0 \/ y <> 0 ->
  ((exists v, cart_to_bl_vel x y z al vx vy vz = Ok v) <-> x <> 0).
Proof.
  intros Hr H. split.
  - intros [v Hv] ->. rewrite bl_vel_x0 in Hv. discriminate.
  - intros Hx.
    destruct (cart_bl_velocity (fun s => x + vx * s) (fun s => y + vy * s) (fun s => z + vz * s) al 0 vx vy vz) as (v & _ & Hv & _).
    1-3: D_auto; ring.
    + rewrite !Rmult_0_r, !Rplus_0_r. exact Hr.
    + rewrite !Rmult_0_r, !Rplus_0_r. exact Hx.
    + rewrite !Rmult_0_r, !Rplus_0_r in Hv. exists v; exact Hv.
Qed.

(** ** C25: alpha = 0 *)
Lemma bl_r_zero_spin x y z : bl_r x y z 0 = hypot (hypot x y) z.
Proof.
  unfold bl_r, bl_w. unfold hypot at 1. rewrite hypot_sq. f_equal.
  replace ((x ^ 2 + y ^ 2 + z ^ 2 - 0 ^ 2) ^ 2 + 4 * 0 ^ 2 * z ^ 2) with ((x ^ 2 + y ^ 2 + z ^ 2) * (x ^ 2 + y ^ 2 + z ^ 2)) by ring.
  rewrite sqrt_square by nra. field.
Qed.
Lemma acos_atan2 h z : 0 <= h -> 0 < hypot h z -> acos (z / hypot h z) = atan2 h z.
Proof.
  intros Hh H. destruct (atan2_polar z h) as [A B]. assert (E : hypot z h = hypot h z) by (unfold hypot; f_equal; ring).
  rewrite E in A. rewrite <- (acos_cos (atan2 h z)) by (apply atan2_upper; exact Hh). f_equal.
  apply Rmult_eq_reg_l with (hypot h z); [|lra]. rewrite A. field. lra.
Qed.
Lemma zero_spin_pos t x y z : (x <> 0 \/ y <> 0 \/ z <> 0) -> cart_to_bl t x y z 0 = Ok (cart_to_sph t x y z).
Proof.
  intros H. assert (P : 0 < hypot (hypot x y) z).
  { apply hypot_pos. destruct H as [H|[H|H]]; [left|left|right; exact H]; apply Rgt_not_eq, hypot_pos; tauto. }
  rewrite cart_to_bl_ok by (rewrite bl_r_zero_spin; exact P). rewrite bl_r_zero_spin. unfold cart_to_sph. cbv zeta.
  rewrite acos_atan2; [reflexivity|apply hypot_nonneg|exact P].
Qed.
Lemma zero_spin_pos_inv t r th p : 0 <= r -> bl_to_cart t r th p 0 = sph_to_cart t r th p.
Proof.
  intros H. unfold bl_to_cart, sph_to_cart. replace (r ^ 2 + 0 ^ 2) with (r * r) by ring. rewrite sqrt_square by exact H.
  cbv zeta. f_equal; ring.
Qed.
Lemma zero_spin_vel_inv r th p vr vth vp : 0 < r ->
  bl_to_cart_vel r th p 0 vr vth vp = Ok (sph_to_cart_vel r th p vr vth vp).
Proof.
  intros H. unfold bl_to_cart_vel, sph_to_cart_vel. replace (r ^ 2 + 0 ^ 2) with (r * r) by ring. rewrite sqrt_square by lra.
  cbv zeta. rewrite !np_div_ok by lra. cbn [bindR]. f_equal. f_equal; field; lra.
Qed.
(** both velocity conversions exist and agree whenever x <> 0 *)
Lemma zero_spin_vel x y z vx vy vz : x <> 0 ->
  cart_to_bl_vel x y z 0 vx vy vz = cart_to_sph_vel x y z vx vy vz.
Proof.
  intros Hx.
  assert (Ph : 0 < hypot x y) by (apply hypot_pos; tauto).
  assert (Pr : 0 < bl_r x y z 0) by (rewrite bl_r_zero_spin; apply hypot_pos; left; lra).
  set (X := fun s => x + vx * s). set (Y := fun s => y + vy * s). set (Z := fun s => z + vz * s).
  assert (X0 : X 0 = x) by (unfold X; ring). assert (Y0 : Y 0 = y) by (unfold Y; ring). assert (Z0 : Z 0 = z) by (unfold Z; ring).
  assert (DX : is_derive X 0 vx) by (unfold X; D_auto; ring).
  assert (DY : is_derive Y 0 vy) by (unfold Y; D_auto; ring).
  assert (DZ : is_derive Z 0 vz) by (unfold Z; D_auto; ring).
  destruct (cart_bl_velocity X Y Z 0 0 vx vy vz DX DY DZ) as (v & P & Hv & HP & D1 & D2 & (psi & S1 & D3) & _);
    [rewrite X0, Y0, Z0; exact Pr|rewrite X0; exact Hx|].
  destruct (cart_sph_velocity X Y Z 0 vx vy vz DX DY DZ) as (v' & Hv' & E1 & E2 & (psi' & S2 & E3) & _);
    [rewrite X0; tauto|].
  rewrite X0, Y0, Z0 in Hv, Hv'. rewrite Hv, Hv'. f_equal.
  assert (HL : locally 0 (fun s => P s = cart_to_sph s (X s) (Y s) (Z s))).
  { assert (L : locally 0 (fun s => X s <> 0)) by (apply locally_nonzero; [eapply D_continuous; exact DX|rewrite X0; exact Hx]).
    generalize (filter_and _ _ L HP). apply filter_imp. intros s [N1 N2].
    rewrite zero_spin_pos in N2 by tauto. apply Ok_inj in N2. symmetry; exact N2. }
  assert (G1 : v1 v = v1 v').
  { eapply D_unique; [|exact E1]. eapply D_loc; [|exact D1]. revert HL. apply filter_imp. intros s ->. reflexivity. }
  assert (G2 : v2 v = v2 v').
  { eapply D_unique; [|exact E2]. eapply D_loc; [|exact D2]. revert HL. apply filter_imp. intros s ->. reflexivity. }
  assert (G3 : v3 v = v3 v').
  { destruct S1 as [P0 L1], S2 as [P0' L2].
    assert (HQ : psi 0 = psi' 0). { rewrite P0, P0'. assert (HL0 := locally_singleton _ _ HL). cbv beta in HL0. rewrite HL0. reflexivity. }
    assert (L : locally 0 (fun s => sin (psi s) = sin (psi' s) /\ cos (psi s) = cos (psi' s))).
    { generalize (filter_and _ _ HL (filter_and _ _ L1 L2)). apply filter_imp. intros s (N & [A1 A2] & B1 & B2).
      rewrite N in A1, A2. split; congruence. }
    assert (Ds : v3 v * cos (psi 0) = v3 v' * cos (psi' 0)).
    { apply D_unique with (fun s => sin (psi' s)) 0; [|apply D_sin; exact E3].
      eapply D_loc; [|apply D_sin; exact D3]. revert L. apply filter_imp. intros s [A _]. exact A. }
    assert (Dc : v3 v * - sin (psi 0) = v3 v' * - sin (psi' 0)).
    { apply D_unique with (fun s => cos (psi' s)) 0; [|apply D_cos; exact E3].
      eapply D_loc; [|apply D_cos; exact D3]. revert L. apply filter_imp. intros s [_ A]. exact A. }
    rewrite HQ in Ds, Dc. assert (T := sin2_cos2 (psi' 0)). unfold Rsqr in T.
    set (sn := sin (psi' 0)) in *. set (cs := cos (psi' 0)) in *. clearbody sn cs.
    transitivity (v3 v * (sn * sn + cs * cs)); [rewrite T; ring|].
    transitivity (v3 v' * (sn * sn + cs * cs)); [|rewrite T; ring].
    transitivity ((v3 v * cs) * cs - (v3 v * - sn) * sn); [ring|]. rewrite Ds, Dc. ring. }
  destruct v as [a1 a2 a3], v' as [b1 b2 b3]. cbn [v1 v2 v3] in *. congruence.
Qed.
