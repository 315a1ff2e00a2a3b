From Coq Require Import Reals List ZArith Lra Lia Bool.
From Coquelicot Require Import Coquelicot.
From Verif Require Import Base Calc GeoUtilsModel GeoUtilsProofs CoordModel CoordProofs.
Import ListNotations.
Open Scope R_scope.

Lemma D_atan (f : R -> R) (t a : R) : is_derive f t a -> is_derive (fun s => atan (f s)) t (a / (1 + f t * f t)).
Proof.
  intros H. eapply D_eq. apply (D_comp atan f); [|exact H].
  apply is_derive_Reals. apply derivable_pt_lim_atan. unfold Rsqr; field. nra.
Qed.
Lemma D_acos (f : R -> R) (t a : R) : -1 < f t < 1 -> is_derive f t a ->
  is_derive (fun s => acos (f s)) t (- a / sqrt (1 - f t * f t)).
Proof.
  intros Hb H. eapply D_eq. apply (D_comp acos f); [|exact H].
  - apply is_derive_Reals. apply derive_pt_eq_1 with (derivable_pt_acos (f t) Hb). apply derive_pt_acos.
  - unfold Rsqr. field. assert (0 < 1 - f t * f t) by nra. apply Rgt_not_eq, sqrt_lt_R0. assumption.
Qed.

Lemma D_loc (f g : R -> R) (t a : R) : locally t (fun s => f s = g s) -> is_derive f t a -> is_derive g t a.
Proof. apply is_derive_ext_loc. Qed.

(** atan2 off the cut *)
Lemma atan2_pos_y y x : 0 < y -> atan2 y x = PI / 2 - atan (x / y).
Proof.
  intros Hy. assert (P := PI_RGT_0). destruct (atan_bound (x / y)) as [L U].
  destruct (atan2_polar x y) as [A B]. destruct (atan_polar y x) as [C D]; [lra|].
  assert (H := hypot_pos x y ltac:(right; lra)).
  assert (E : hypot y x = hypot x y) by (unfold hypot; f_equal; ring). rewrite E in C, D.
  rewrite (Rabs_right y) in C, D by lra.
  apply angle_unique; [apply atan2_range|lra| |].
  - rewrite sin_minus, sin_PI2, cos_PI2. apply Rmult_eq_reg_l with (hypot x y); [|lra]. lra.
  - rewrite cos_minus, sin_PI2, cos_PI2. apply Rmult_eq_reg_l with (hypot x y); [|lra].
    assert (x / y * y = x) by (field; lra). lra.
Qed.
Lemma atan2_neg_y y x : y < 0 -> atan2 y x = - (PI / 2) - atan (x / y).
Proof.
  intros Hy. assert (P := PI_RGT_0). destruct (atan_bound (x / y)) as [L U].
  destruct (atan2_polar x y) as [A B]. destruct (atan_polar y x) as [C D]; [lra|].
  assert (H := hypot_pos x y ltac:(right; lra)).
  assert (E : hypot y x = hypot x y) by (unfold hypot; f_equal; ring). rewrite E in C, D.
  rewrite (Rabs_left y) in C, D by lra.
  apply angle_unique; [apply atan2_range|lra| |].
  - rewrite sin_minus, sin_neg, cos_neg, sin_PI2, cos_PI2. apply Rmult_eq_reg_l with (hypot x y); [|lra]. lra.
  - rewrite cos_minus, sin_neg, cos_neg, sin_PI2, cos_PI2. apply Rmult_eq_reg_l with (hypot x y); [|lra].
    assert (x / y * y = x) by (field; lra). lra.
Qed.
Lemma atan2_pos_x y x : 0 < x -> atan2 y x = atan (y / x).
Proof. intros H. unfold atan2. destruct (Rlt_dec 0 x); tauto. Qed.

Lemma D_atan2 (y x : R -> R) (t yd xd : R) : is_derive y t yd -> is_derive x t xd -> 0 < x t \/ y t <> 0 ->
  is_derive (fun s => atan2 (y s) (x s)) t ((x t * yd - y t * xd) / (x t * x t + y t * y t)).
Proof.
  intros Dy Dx H. destruct (Rtotal_order (y t) 0) as [Hy|[Hy|Hy]].
  - apply D_loc with (fun s => - (PI / 2) - atan (x s / y s)).
    + assert (L : locally t (fun s => 0 < - y s)).
      { apply (locally_positive (fun s => - y s)); [|lra]. eapply D_continuous. apply D_opp. exact Dy. }
      revert L. apply filter_imp. intros s Hs. symmetry. apply atan2_neg_y. lra.
    + eapply D_eq. apply D_minus; [apply D_const|]. apply D_atan. apply D_div; [lra|exact Dx|exact Dy].
      cbv beta. field. repeat split; nra.
  - assert (Hx : 0 < x t) by lra.
    apply D_loc with (fun s => atan (y s / x s)).
    + assert (L : locally t (fun s => 0 < x s)) by (apply locally_positive; [eapply D_continuous; exact Dx|lra]).
      revert L. apply filter_imp. intros s Hs. symmetry. apply atan2_pos_x. lra.
    + eapply D_eq. apply D_atan. apply D_div; [lra|exact Dy|exact Dx].
      cbv beta. field. repeat split; nra.
  - apply D_loc with (fun s => PI / 2 - atan (x s / y s)).
    + assert (L : locally t (fun s => 0 < y s)) by (apply locally_positive; [eapply D_continuous; exact Dy|lra]).
      revert L. apply filter_imp. intros s Hs. symmetry. apply atan2_pos_y. lra.
    + eapply D_eq. apply D_minus; [apply D_const|]. apply D_atan. apply D_div; [lra|exact Dx|exact Dy].
      cbv beta. field. repeat split; nra.
Qed.

(** [psi] is a local version of the angle [ph] (equal up to multiples of 2 pi), equal to it at t *)
Definition same_angle_near (t : R) (psi ph : R -> R) : Prop :=
  psi t = ph t /\ locally t (fun s => sin (psi s) = sin (ph s) /\ cos (psi s) = cos (ph s)).

Lemma atan2_lift (y x : R -> R) (t yd xd : R) : is_derive y t yd -> is_derive x t xd -> x t <> 0 \/ y t <> 0 ->
  exists psi, same_angle_near t psi (fun s => atan2 (y s) (x s))
   /\ is_derive psi t ((x t * yd - y t * xd) / (x t * x t + y t * y t)).
Proof.
  intros Dy Dx H. destruct (Req_dec (y t) 0) as [Ey|Ey].
  2:{ exists (fun s => atan2 (y s) (x s)). split.
      - split; [reflexivity|]. apply filter_forall. intros s; split; reflexivity.
      - apply D_atan2; auto. }
  destruct (Rtotal_order (x t) 0) as [Hx|[Hx|Hx]]; [|tauto|].
  2:{ exists (fun s => atan2 (y s) (x s)). split.
      - split; [reflexivity|]. apply filter_forall. intros s; split; reflexivity.
      - apply D_atan2; auto. }
  exists (fun s => atan (y s / x s) + PI). split.
  - split.
    + unfold atan2. rewrite Ey. destruct (Rlt_dec 0 (x t)); [lra|]. destruct (Rlt_dec (x t) 0); [|lra].
      destruct (Rle_dec 0 0); lra.
    + assert (L : locally t (fun s => 0 < - x s)).
      { apply (locally_positive (fun s => - x s)); [|lra]. eapply D_continuous. apply D_opp. exact Dx. }
      revert L. apply filter_imp. intros s Hs. unfold atan2.
      destruct (Rlt_dec 0 (x s)); [lra|]. destruct (Rlt_dec (x s) 0); [|lra].
      destruct (Rle_dec 0 (y s)); [split; reflexivity|].
      rewrite sin_plus, cos_plus, sin_minus, cos_minus, sin_PI, cos_PI. split; ring.
  - eapply D_eq. apply D_plus; [|apply D_const]. apply D_atan. apply D_div; [lra|exact Dy|exact Dx].
    cbv beta. field. repeat split; nra.
Qed.

Lemma np_div_ok a b : b <> 0 -> np_div a b = Ok (a / b).
Proof. unfold np_div. destruct (Req_EM_T b 0); tauto. Qed.
Lemma np_sqrt_ok a : 0 <= a -> np_sqrt a = Ok (sqrt a).
Proof. unfold np_sqrt. destruct (Rle_dec 0 a); tauto. Qed.
Lemma np_arccos_ok a : -1 <= a <= 1 -> np_arccos a = Ok (acos a).
Proof. unfold np_arccos. intros [L U]. destruct (Rle_dec (-1) a); [|tauto]. destruct (Rle_dec a 1); tauto. Qed.

Lemma off_axis x y : x <> 0 \/ y <> 0 -> 0 < x * x + y * y.
Proof. intros [H|H]; nra. Qed.

(** ** C21: Cartesian -> spherical velocities *)
Lemma cart_sph_velocity (x y z : R -> R) (t0 vx vy vz : R) :
  is_derive x t0 vx -> is_derive y t0 vy -> is_derive z t0 vz -> x t0 <> 0 \/ y t0 <> 0 ->
  exists v, cart_to_sph_vel (x t0) (y t0) (z t0) vx vy vz = Ok v
    /\ is_derive (fun s => c1 (cart_to_sph s (x s) (y s) (z s))) t0 (v1 v)
    /\ is_derive (fun s => c2 (cart_to_sph s (x s) (y s) (z s))) t0 (v2 v)
    /\ (exists psi, same_angle_near t0 psi (fun s => c3 (cart_to_sph s (x s) (y s) (z s))) /\ is_derive psi t0 (v3 v))
    /\ (0 < x t0 \/ y t0 <> 0 -> is_derive (fun s => c3 (cart_to_sph s (x s) (y s) (z s))) t0 (v3 v)).
Proof.
  intros Dx Dy Dz H. assert (N := off_axis _ _ H).
  unfold cart_to_sph_vel.
  assert (N1 : x t0 ^ 2 + y t0 ^ 2 = x t0 * x t0 + y t0 * y t0) by ring.
  assert (N2 : 0 < x t0 ^ 2 + y t0 ^ 2 + z t0 ^ 2) by nra.
  assert (S1 : 0 < sqrt (x t0 ^ 2 + y t0 ^ 2)) by (apply sqrt_lt_R0; lra).
  assert (S2 : 0 < sqrt (x t0 ^ 2 + y t0 ^ 2 + z t0 ^ 2)) by (apply sqrt_lt_R0; lra).
  rewrite !np_div_ok by nra. cbn [bindR]. eexists. split; [reflexivity|]. cbn [v1 v2 v3]. unfold cart_to_sph; cbn [c0 c1 c2 c3].
  assert (Dh : is_derive (fun s => hypot (x s) (y s)) t0 ((x t0 * vx + y t0 * vy) / hypot (x t0) (y t0))).
  { unfold hypot. eapply D_eq. apply D_sqrt; [exact N|]. apply D_plus; apply D_mult; eassumption.
    cbv beta. field. rewrite <- N1. lra. }
  assert (Hh : hypot (x t0) (y t0) = sqrt (x t0 ^ 2 + y t0 ^ 2)) by (unfold hypot; f_equal; ring).
  assert (Hq := hypot_sq (x t0) (y t0)).
  assert (S1' : 0 < hypot (x t0) (y t0)) by lra.
  split; [|split; [|split]].
  - apply (D_ext (fun s => sqrt (hypot (x s) (y s) * hypot (x s) (y s) + z s * z s))); [intros; reflexivity|]. eapply D_eq.
    apply D_sqrt; [rewrite Hq; nra|]. apply D_plus; [apply D_mult; exact Dh|apply D_mult; exact Dz].
    cbv beta. rewrite Hq. replace (x t0 ^ 2 + y t0 ^ 2 + z t0 ^ 2) with (x t0 * x t0 + y t0 * y t0 + z t0 * z t0) in * by ring.
    field. split; lra.
  - eapply D_eq. apply D_atan2; [exact Dh|exact Dz|]. right. rewrite Hh. lra.
    cbv beta. rewrite <- Hh in *. replace (z t0 * z t0 + hypot (x t0) (y t0) * hypot (x t0) (y t0)) with (x t0 ^ 2 + y t0 ^ 2 + z t0 ^ 2).
    2:{ rewrite Hq; ring. }
    assert (E : (z t0 * ((x t0 * vx + y t0 * vy) / hypot (x t0) (y t0)) - hypot (x t0) (y t0) * vz) =
       (z t0 * (x t0 * vx + y t0 * vy) - (x t0 ^ 2 + y t0 ^ 2) * vz) / hypot (x t0) (y t0)).
    { rewrite N1, <- Hq. field. lra. }
    rewrite E. field. lra.
  - destruct (atan2_lift y x t0 vy vx Dy Dx H) as (psi & L & D). exists psi. split; [exact L|].
    eapply D_eq; [exact D|]. rewrite N1. field. lra.
  - intros Hc. eapply D_eq; [apply (D_atan2 y x t0 vy vx Dy Dx Hc)|]. rewrite N1. field. lra.
Qed.

(** ** C21: spherical -> Cartesian velocities, everywhere *)
Lemma sph_cart_velocity (r th p : R -> R) (t0 vr vth vp : R) :
  is_derive r t0 vr -> is_derive th t0 vth -> is_derive p t0 vp ->
  let v := sph_to_cart_vel (r t0) (th t0) (p t0) vr vth vp in
  is_derive (fun s => c1 (sph_to_cart s (r s) (th s) (p s))) t0 (v1 v)
  /\ is_derive (fun s => c2 (sph_to_cart s (r s) (th s) (p s))) t0 (v2 v)
  /\ is_derive (fun s => c3 (sph_to_cart s (r s) (th s) (p s))) t0 (v3 v).
Proof.
  intros Dr Dt Dp. cbv zeta. unfold sph_to_cart, sph_to_cart_vel; cbn [c0 c1 c2 c3 v1 v2 v3].
  split; [|split]; (D_auto; ring).
Qed.

(** algebraic round trips on velocities *)
Lemma vel_sph_cart_sph r th p vr vth vp : 0 < r -> 0 < th < PI ->
  let v := sph_to_cart_vel r th p vr vth vp in
  let c := sph_to_cart 0 r th p in
  cart_to_sph_vel (c1 c) (c2 c) (c3 c) (v1 v) (v2 v) (v3 v) = Ok (mk3 vr vth vp).
Proof.
  intros Hr Hth. cbv zeta. unfold sph_to_cart, sph_to_cart_vel, cart_to_sph_vel; cbn [c0 c1 c2 c3 v1 v2 v3].
  assert (S : 0 < sin th) by (apply sin_gt_0; tauto).
  assert (T := sin2_cos2 p). assert (T2 := sin2_cos2 th). unfold Rsqr in T, T2.
  assert (Cp : cos p * cos p = 1 - sin p * sin p) by lra.
  assert (Ct : cos th * cos th = 1 - sin th * sin th) by lra.
  assert (E1 : (r * cos p * sin th) ^ 2 + (r * sin p * sin th) ^ 2 = (r * sin th) * (r * sin th)).
  { replace ((r * cos p * sin th) ^ 2 + (r * sin p * sin th) ^ 2) with (r * sin th * (r * sin th) * (sin p * sin p + cos p * cos p)) by ring.
    rewrite T. ring. }
  assert (E2 : (r * cos p * sin th) ^ 2 + (r * sin p * sin th) ^ 2 + (r * cos th) ^ 2 = r * r).
  { rewrite E1. replace (r * sin th * (r * sin th) + (r * cos th) ^ 2) with (r * r * (sin th * sin th + cos th * cos th)) by ring.
    rewrite T2. ring. }
  rewrite E2, E1. rewrite !sqrt_square by nra.
  assert (r * sin th <> 0) by (apply mul_nz; lra).
  assert (r * sin th * (r * sin th) <> 0) by (apply sq_nz; assumption).
  assert (r * r * (r * sin th) <> 0) by (apply mul_nz; [apply sq_nz; lra|assumption]).
  rewrite !np_div_ok by (try assumption; lra). cbn [bindR].
  match goal with |- context [?a + ?b + r * cos th * ?c] => assert (EA : a + b = r * sin th * (sin th * vr + r * cos th * vth)) end.
  { transitivity ((sin p * sin p + cos p * cos p) * (r * sin th * (sin th * vr + r * cos th * vth))); [ring|]. rewrite T. ring. }
  match goal with |- context [-1 * ?a] => assert (EB : -1 * a = (r * sin th) * (r * sin th) * vp) end.
  { transitivity ((sin p * sin p + cos p * cos p) * ((r * sin th) * (r * sin th) * vp)); [ring|]. rewrite T. ring. }
  rewrite EA, EB. clear EA EB. f_equal. f_equal.
  - apply Rmult_eq_reg_r with r; [|lra]. unfold Rdiv. rewrite Rmult_assoc, Rinv_l by lra. rewrite Rmult_1_r.
    transitivity ((sin th * sin th + cos th * cos th) * (r * vr)); [ring|]. rewrite T2. ring.
  - apply Rmult_eq_reg_r with (r * r * (r * sin th)); [|assumption]. unfold Rdiv. rewrite Rmult_assoc, Rinv_l by assumption.
    rewrite Rmult_1_r.
    transitivity ((sin th * sin th + cos th * cos th) * (r * sin th * (r * r * vth))); [ring|]. rewrite T2. ring.
  - field. split; lra.
Qed.
