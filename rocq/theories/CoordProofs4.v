From Coq Require Import Reals List ZArith Lra Lia Bool.
From Coquelicot Require Import Coquelicot.
From Verif Require Import Base Calc GeoUtilsModel GeoUtilsProofs CoordModel CoordProofs CoordProofs2 CoordProofs3.
Import ListNotations.
Open Scope R_scope.

Definition bl_S (x y z al : R) : R := sqrt (bl_w x y z al ^ 2 + 4 * al ^ 2 * z ^ 2).
Lemma bl_S_sq x y z al : bl_S x y z al * bl_S x y z al = bl_w x y z al ^ 2 + 4 * al ^ 2 * z ^ 2.
Proof. apply sqrt_sqrt. generalize (bl_w x y z al); intros; nra. Qed.
Lemma bl_S_ge x y z al : 0 <= bl_S x y z al /\ Rabs (bl_w x y z al) <= bl_S x y z al.
Proof.
  split; [apply sqrt_pos|]. unfold bl_S. rewrite <- sqrt_Rsqr_abs. apply sqrt_le_1_alt. unfold Rsqr. nra.
Qed.
Lemma bl_r_sq x y z al : bl_r x y z al * bl_r x y z al = / 2 * (bl_w x y z al + bl_S x y z al).
Proof.
  unfold bl_r. fold (bl_S x y z al). apply sqrt_sqrt. destruct (bl_S_ge x y z al) as [_ H].
  assert (- bl_w x y z al <= Rabs (bl_w x y z al)). { rewrite <- Rabs_Ropp. apply RRle_abs. } lra.
Qed.
Lemma bl_r_nonneg x y z al : 0 <= bl_r x y z al.
Proof. apply sqrt_pos. Qed.
(** the defining equation of the BL radius: (x2+y2)/(r2+a2) + z2/r2 = 1 *)
Lemma bl_r_ellipsoid x y z al : let r := bl_r x y z al in
  (x * x + y * y) * (r * r) = (r * r + al * al) * (r * r - z * z).
Proof.
  cbv zeta. assert (S := bl_S_sq x y z al). rewrite bl_r_sq. set (S0 := bl_S x y z al) in *.
  assert (E : x * x + y * y = bl_w x y z al + al * al - z * z) by (unfold bl_w; ring). rewrite E.
  set (w := bl_w x y z al) in *. clearbody w S0. nra.
Qed.
Lemma bl_S_pos x y z al : 0 < bl_r x y z al -> 0 < bl_S x y z al.
Proof.
  intros H. destruct (bl_S_ge x y z al) as [H1 H2]. destruct H1 as [H1|H1]; [exact H1|].
  exfalso. rewrite <- H1 in H2. assert (bl_w x y z al = 0).
  { destruct (Req_dec (bl_w x y z al) 0) as [|N]; [assumption|]. assert (0 < Rabs (bl_w x y z al)) by (apply Rabs_pos_lt; exact N). lra. }
  assert (X := bl_r_sq x y z al). rewrite H0, <- H1 in X. nra.
Qed.
Lemma bl_z_le_r x y z al : 0 < bl_r x y z al -> z * z <= bl_r x y z al * bl_r x y z al.
Proof.
  intros H. assert (E := bl_r_ellipsoid x y z al). cbv zeta in E. set (r := bl_r x y z al) in *.
  destruct (Rle_dec (z * z) (r * r)) as [|N]; [assumption|exfalso]. assert (0 < r * r) by nra.
  assert (0 <= (x * x + y * y) * (r * r)) by nra. nra.
Qed.
Lemma bl_z_lt_r x y z al : 0 < bl_r x y z al -> x <> 0 \/ y <> 0 -> z * z < bl_r x y z al * bl_r x y z al.
Proof.
  intros H Hxy. assert (O := off_axis x y Hxy). assert (E := bl_r_ellipsoid x y z al). cbv zeta in E. set (r := bl_r x y z al) in *.
  destruct (Rlt_dec (z * z) (r * r)) as [|N]; [assumption|exfalso]. assert (0 < r * r) by nra.
  assert (0 < (x * x + y * y) * (r * r)) by nra. nra.
Qed.
Lemma sq_le_bounds a b : 0 < b -> a * a <= b * b -> -1 <= a / b <= 1.
Proof.
  intros Hb H. split.
  - apply Rmult_le_reg_r with b; [exact Hb|]. unfold Rdiv. rewrite Rmult_assoc, Rinv_l by lra. nra.
  - apply Rmult_le_reg_r with b; [exact Hb|]. unfold Rdiv. rewrite Rmult_assoc, Rinv_l by lra. nra.
Qed.
Lemma sq_lt_bounds a b : 0 < b -> a * a < b * b -> -1 < a / b < 1.
Proof.
  intros Hb H. split.
  - apply Rmult_lt_reg_r with b; [exact Hb|]. unfold Rdiv. rewrite Rmult_assoc, Rinv_l by lra. nra.
  - apply Rmult_lt_reg_r with b; [exact Hb|]. unfold Rdiv. rewrite Rmult_assoc, Rinv_l by lra. nra.
Qed.

Lemma cart_to_bl_ok t x y z al : 0 < bl_r x y z al ->
  cart_to_bl t x y z al = Ok (mkQ4 t (bl_r x y z al) (acos (z / bl_r x y z al)) (atan2 y x)).
Proof.
  intros H. unfold cart_to_bl. rewrite np_div_ok by lra. cbn [bindR].
  rewrite np_arccos_ok by (apply sq_le_bounds; [exact H|apply bl_z_le_r; exact H]). reflexivity.
Qed.
Lemma cart_to_bl_fails t x y z al : bl_r x y z al = 0 -> cart_to_bl t x y z al = Err NonFinite.
Proof. intros H. unfold cart_to_bl. rewrite H. unfold np_div. destruct (Req_EM_T 0 0); [reflexivity|tauto]. Qed.

(** the BL radius vanishes exactly on the disc z = 0, x2+y2 <= alpha2 *)
Lemma bl_r_zero_iff x y z al : bl_r x y z al = 0 <-> z = 0 /\ x * x + y * y <= al * al.
Proof.
  assert (Q := bl_r_sq x y z al). assert (S2 := bl_S_sq x y z al). destruct (bl_S_ge x y z al) as [Sn Sa].
  split.
  - intros H. rewrite H in Q. assert (Sw : bl_S x y z al = - bl_w x y z al) by lra. rewrite Sw in S2, Sn.
    assert (al * z = 0) by nra. apply Rmult_integral in H0. unfold bl_w in Sn.
    destruct H0 as [H0|H0]; [|subst z; split; [reflexivity|nra]].
    subst al. split; nra.
  - intros [-> H]. assert (W : bl_w x y 0 al <= 0) by (unfold bl_w; nra).
    assert (bl_S x y 0 al = - bl_w x y 0 al). { apply sqrt_eq; [lra|]. ring. }
    rewrite H0 in Q. assert (bl_r x y 0 al * bl_r x y 0 al = 0) by lra. apply Rmult_integral in H1. tauto.
Qed.

(** ** C22 *)
Lemma cart_bl_cart t x y z al : 0 < bl_r x y z al ->
  exists s, cart_to_bl t x y z al = Ok s /\ bl_to_cart (c0 s) (c1 s) (c2 s) (c3 s) al = mkQ4 t x y z
   /\ 0 < c1 s /\ 0 <= c2 s <= PI /\ - PI < c3 s <= PI.
Proof.
  intros H. rewrite cart_to_bl_ok by assumption. eexists. split; [reflexivity|]. cbn [c0 c1 c2 c3].
  assert (Bz := sq_le_bounds _ _ H (bl_z_le_r x y z al H)).
  split; [|split; [exact H|split; [apply acos_bound|apply atan2_range]]].
  assert (E := bl_r_ellipsoid x y z al). cbv zeta in E. set (r := bl_r x y z al) in *.
  assert (K : sqrt (r ^ 2 + al ^ 2) * sin (acos (z / r)) = hypot x y).
  { rewrite sin_acos by exact Bz. rewrite <- sqrt_mult_alt by nra. unfold hypot. f_equal.
    unfold Rsqr. apply Rmult_eq_reg_r with (r * r); [|apply sq_nz; lra].
    rewrite E. field. lra. }
  destruct (atan2_polar x y) as [A B].
  unfold bl_to_cart. rewrite K. f_equal; [exact A|exact B|]. rewrite cos_acos by exact Bz. field. lra.
Qed.

Lemma bl_cart_r t r th p al : 0 <= r ->
  let c := bl_to_cart t r th p al in
  bl_S (c1 c) (c2 c) (c3 c) al = r * r + al * al * (cos th * cos th) /\ bl_r (c1 c) (c2 c) (c3 c) al = r.
Proof.
  intros Hr. cbv zeta. unfold bl_to_cart; cbn [c1 c2 c3].
  assert (T := sin2_cos2 p). assert (T2 := sin2_cos2 th). unfold Rsqr in T, T2.
  assert (Q : sqrt (r ^ 2 + al ^ 2) * sqrt (r ^ 2 + al ^ 2) = r ^ 2 + al ^ 2) by (apply sqrt_sqrt; nra).
  set (xa := sqrt (r ^ 2 + al ^ 2)) in *. clearbody xa.
  assert (W : bl_w (xa * sin th * cos p) (xa * sin th * sin p) (r * cos th) al = r * r - al * al * (cos th * cos th)).
  { unfold bl_w.
    transitivity (xa * xa * (sin th * sin th) * (sin p * sin p + cos p * cos p) + r * r * (cos th * cos th) - al * al); [ring|].
    rewrite T, Q. replace (sin th * sin th) with (1 - cos th * cos th) by lra. ring. }
  assert (S : bl_S (xa * sin th * cos p) (xa * sin th * sin p) (r * cos th) al = r * r + al * al * (cos th * cos th)).
  { unfold bl_S. rewrite W. apply sqrt_eq; [nra|]. ring. }
  split; [exact S|]. unfold bl_r. fold (bl_S (xa * sin th * cos p) (xa * sin th * sin p) (r * cos th) al).
  rewrite S, W. apply sqrt_eq; [exact Hr|]. field.
Qed.

Lemma bl_cart_bl t r th p al : 0 < r -> 0 < th < PI -> - PI < p <= PI ->
  let c := bl_to_cart t r th p al in
  cart_to_bl (c0 c) (c1 c) (c2 c) (c3 c) al = Ok (mkQ4 t r th p).
Proof.
  intros Hr Hth Hp. cbv zeta. destruct (bl_cart_r t r th p al ltac:(lra)) as [_ R1]. 
  rewrite cart_to_bl_ok by (rewrite R1; exact Hr). rewrite R1. unfold bl_to_cart; cbn [c0 c1 c2 c3].
  assert (S : 0 < sin th) by (apply sin_gt_0; tauto).
  assert (0 < sqrt (r ^ 2 + al ^ 2)) by (apply sqrt_lt_R0; nra).
  f_equal. f_equal.
  - replace (r * cos th / r) with (cos th) by (field; lra). apply acos_cos. lra.
  - apply atan2_unique; [nra|exact Hp].
Qed.

(** ** C23: Boyer-Lindquist -> Cartesian velocities *)
Lemma bl_cart_velocity (r th p : R -> R) (al t0 vr vth vp : R) :
  is_derive r t0 vr -> is_derive th t0 vth -> is_derive p t0 vp -> r t0 <> 0 \/ al <> 0 ->
  exists v, bl_to_cart_vel (r t0) (th t0) (p t0) al vr vth vp = Ok v
  /\ is_derive (fun s => c1 (bl_to_cart s (r s) (th s) (p s) al)) t0 (v1 v)
  /\ is_derive (fun s => c2 (bl_to_cart s (r s) (th s) (p s) al)) t0 (v2 v)
  /\ is_derive (fun s => c3 (bl_to_cart s (r s) (th s) (p s) al)) t0 (v3 v).
Proof.
  intros Dr Dt Dp H. assert (O := off_axis _ _ H).
  assert (O2 : 0 < r t0 ^ 2 + al ^ 2) by nra. assert (Sq := sqrt_lt_R0 _ O2).
  unfold bl_to_cart, bl_to_cart_vel; cbn [c0 c1 c2 c3].
  rewrite !np_div_ok by lra. cbn [bindR]. eexists. split; [reflexivity|]. cbn [v1 v2 v3].
  split; [|split].
  - D_auto; try exact O2. simpl INR. simpl pred. rewrite pow_1. field. lra.
  - D_auto; try exact O2. simpl INR. simpl pred. rewrite pow_1. field. lra.
  - D_auto. ring.
Qed.
