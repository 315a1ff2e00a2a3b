From Coq Require Import Reals List ZArith Lra Lia Bool.
From Coquelicot Require Import Coquelicot.
From Verif Require Import Base Calc GeoUtilsModel GeoUtilsProofs CoordModel.
Import ListNotations.
Open Scope R_scope.

(** ** angles *)
Lemma angle_unique a b : - PI < a <= PI -> - PI < b <= PI -> sin a = sin b -> cos a = cos b -> a = b.
Proof.
  intros Ha Hb Hs Hc.
  assert (H : cos (a - b) = 1).
  { rewrite cos_minus, Hs, Hc. assert (T := sin2_cos2 b). unfold Rsqr in T. lra. }
  assert (Hs2 : sin ((a - b) / 2) = 0).
  { assert (E : cos (2 * ((a - b) / 2)) = 1 - 2 * sin ((a - b) / 2) * sin ((a - b) / 2)) by apply cos_2a_sin.
    replace (2 * ((a - b) / 2)) with (a - b) in E by field. rewrite H in E.
    assert (sin ((a - b) / 2) * sin ((a - b) / 2) = 0) by lra.
    apply Rmult_integral in H0. tauto. }
  destruct (Rtotal_order a b) as [L|[L|L]]; [|exact L|].
  - assert (0 < sin ((b - a) / 2)) by (apply sin_gt_0; lra).
    replace ((b - a) / 2) with (- ((a - b) / 2)) in H0 by field. rewrite sin_neg in H0. lra.
  - assert (0 < sin ((a - b) / 2)) by (apply sin_gt_0; lra). lra.
Qed.

Lemma hypot_pos x y : x <> 0 \/ y <> 0 -> 0 < hypot x y.
Proof. intros H. unfold hypot. apply sqrt_lt_R0. destruct H; nra. Qed.
Lemma hypot_sq x y : hypot x y * hypot x y = x * x + y * y.
Proof. unfold hypot. apply sqrt_sqrt. nra. Qed.
Lemma hypot_nonneg x y : 0 <= hypot x y.
Proof. apply sqrt_pos. Qed.

Lemma sqrt_eq x y : 0 <= y -> y * y = x -> sqrt x = y.
Proof. intros Hy E. rewrite <- E. apply sqrt_square; exact Hy. Qed.

Lemma atan_polar x y : x <> 0 ->
  cos (atan (y / x)) * hypot x y = Rabs x /\ sin (atan (y / x)) * hypot x y = y / x * Rabs x.
Proof.
  intros Hx. assert (Hh : 0 < hypot x y) by (apply hypot_pos; tauto).
  assert (Hax : 0 < Rabs x) by (apply Rabs_pos_lt; exact Hx).
  assert (E : sqrt (1 + (y / x)²) = hypot x y / Rabs x).
  { apply sqrt_eq.
    - apply Rlt_le, Rdiv_lt_0_compat; assumption.
    - replace (hypot x y / Rabs x * (hypot x y / Rabs x)) with ((hypot x y * hypot x y) / (Rabs x * Rabs x)) by (field; lra).
      rewrite hypot_sq. replace (Rabs x * Rabs x) with (x * x). unfold Rsqr; field; exact Hx.
      rewrite <- Rabs_mult. rewrite Rabs_right; nra. }
  rewrite cos_atan, sin_atan, E. split; field; repeat split; try lra; exact Hx.
Qed.

(** polar representation *)
Lemma atan2_polar x y : hypot x y * cos (atan2 y x) = x /\ hypot x y * sin (atan2 y x) = y.
Proof.
  unfold atan2. destruct (Rlt_dec 0 x) as [H|H].
  - destruct (atan_polar x y) as [A B]; [lra|]. rewrite (Rabs_right x) in A, B by lra.
    split; [lra|]. rewrite Rmult_comm, B. field. lra.
  - destruct (Rlt_dec x 0) as [H2|H2].
    + destruct (atan_polar x y) as [A B]; [lra|]. rewrite (Rabs_left x) in A, B by lra.
      assert (B' : sin (atan (y / x)) * hypot x y = - y). { rewrite B. field. lra. }
      destruct (Rle_dec 0 y).
      * rewrite cos_plus, sin_plus, cos_PI, sin_PI. split; lra.
      * rewrite cos_minus, sin_minus, cos_PI, sin_PI. split; lra.
    + assert (x = 0) by lra. subst x. unfold hypot. replace (0 * 0 + y * y) with (y * y) by ring.
      destruct (Rlt_dec 0 y).
      * rewrite cos_PI2, sin_PI2, sqrt_square by lra. split; ring.
      * destruct (Rlt_dec y 0).
        -- rewrite cos_neg, sin_neg, cos_PI2, sin_PI2. replace (y * y) with ((- y) * (- y)) by ring.
           rewrite sqrt_square by lra. split; ring.
        -- assert (y = 0) by lra. subst y. rewrite Rmult_0_r, sqrt_0. split; ring.
Qed.

Lemma atan2_range y x : - PI < atan2 y x <= PI.
Proof.
  assert (P := PI_RGT_0). unfold atan2. destruct (Rlt_dec 0 x) as [H|H].
  - destruct (atan_bound (y / x)). lra.
  - destruct (Rlt_dec x 0) as [H2|H2].
    + destruct (atan_bound (y / x)) as [L U]. destruct (Rle_dec 0 y) as [Hy|Hy].
      * assert (y / x <= 0).
        { unfold Rdiv. assert (/ x < 0) by (apply Rinv_lt_0_compat; exact H2). nra. }
        assert (atan (y / x) <= 0).
        { destruct H0 as [H0|H0]; [left; rewrite <- atan_0; apply atan_increasing; exact H0|].
          rewrite H0, atan_0. lra. }
        lra.
      * assert (0 < y / x). { unfold Rdiv. assert (/ x < 0) by (apply Rinv_lt_0_compat; exact H2). nra. }
        assert (0 < atan (y / x)). { rewrite <- atan_0. apply atan_increasing; exact H0. }
        lra.
    + destruct (Rlt_dec 0 y); [lra|]. destruct (Rlt_dec y 0); lra.
Qed.

Lemma atan2_unique rho p : 0 < rho -> - PI < p <= PI -> atan2 (rho * sin p) (rho * cos p) = p.
Proof.
  intros Hr Hp. destruct (atan2_polar (rho * cos p) (rho * sin p)) as [A B].
  assert (E : hypot (rho * cos p) (rho * sin p) = rho).
  { apply sqrt_eq; [lra|]. assert (T := sin2_cos2 p). unfold Rsqr in T. nra. }
  rewrite E in A, B. apply angle_unique; [apply atan2_range|exact Hp| |]; apply Rmult_eq_reg_l with rho; lra.
Qed.

(** nonnegative first argument: angle in [0, pi] *)
Lemma atan2_upper y x : 0 <= y -> 0 <= atan2 y x <= PI.
Proof.
  intros Hy. destruct (atan2_range y x) as [L U]. split; [|exact U].
  destruct (Rle_dec 0 (atan2 y x)) as [|N]; [assumption|exfalso].
  destruct (atan2_polar x y) as [A B].
  assert (S : sin (atan2 y x) < 0). { apply Rnot_le_lt in N. apply sin_lt_0_var; lra. }
  assert (Hn := hypot_nonneg x y).
  assert (hypot x y = 0) by nra.
  rewrite H in A, B. assert (x = 0) by lra. assert (y = 0) by lra. subst.
  unfold atan2 in N. destruct (Rlt_dec 0 0); [lra|]. apply N. lra.
Qed.

(** ** C19 *)
Lemma cart_sph_cart t x y z :
  let s := cart_to_sph t x y z in
  sph_to_cart (c0 s) (c1 s) (c2 s) (c3 s) = mkQ4 t x y z
  /\ 0 <= c1 s /\ 0 <= c2 s <= PI /\ - PI < c3 s <= PI.
Proof.
  cbv zeta. unfold cart_to_sph; cbn [c0 c1 c2 c3].
  destruct (atan2_polar x y) as [A B]. destruct (atan2_polar z (hypot x y)) as [C D].
  assert (E : hypot (hypot x y) z = hypot z (hypot x y)) by (unfold hypot; f_equal; ring).
  split; [|split; [apply hypot_nonneg|split; [apply atan2_upper, hypot_nonneg|apply atan2_range]]].
  unfold sph_to_cart. rewrite E. f_equal; [| |exact C].
  - transitivity (hypot z (hypot x y) * sin (atan2 (hypot x y) z) * cos (atan2 y x)); [ring|]. rewrite D. exact A.
  - transitivity (hypot z (hypot x y) * sin (atan2 (hypot x y) z) * sin (atan2 y x)); [ring|]. rewrite D. exact B.
Qed.

(** ** C20 *)
Lemma sph_cart_sph t r th p : 0 < r -> 0 < th < PI -> - PI < p <= PI ->
  let c := sph_to_cart t r th p in
  cart_to_sph (c0 c) (c1 c) (c2 c) (c3 c) = mkQ4 t r th p.
Proof.
  intros Hr Hth Hp. cbv zeta. unfold sph_to_cart, cart_to_sph; cbn [c0 c1 c2 c3].
  assert (S : 0 < sin th) by (apply sin_gt_0; tauto).
  assert (T := sin2_cos2 p). assert (T2 := sin2_cos2 th). unfold Rsqr in T, T2.
  assert (E : hypot (r * cos p * sin th) (r * sin p * sin th) = r * sin th).
  { apply sqrt_eq; [nra|].
    replace (r * cos p * sin th * (r * cos p * sin th) + r * sin p * sin th * (r * sin p * sin th))
      with (r * sin th * (r * sin th) * (sin p * sin p + cos p * cos p)) by ring. rewrite T. ring. }
  rewrite E. f_equal.
  - apply sqrt_eq; [lra|].
    replace (r * sin th * (r * sin th) + r * cos th * (r * cos th)) with (r * r * (sin th * sin th + cos th * cos th)) by ring.
    rewrite T2. ring.
  - apply atan2_unique; lra.
  - replace (r * sin p * sin th) with (r * sin th * sin p) by ring.
    replace (r * cos p * sin th) with (r * sin th * cos p) by ring. apply atan2_unique; [nra|exact Hp].
Qed.
