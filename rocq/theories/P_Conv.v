(* generated from tools/P/P_Conv.v.in by tools/genp.py: statements only, proofs are references *)
(** Properties C26, C27, C29, C30, C31: conversion classes, coordinate objects, 4-velocity (einsteinpy.coordinates). *)
From Coq Require Import String Reals List ZArith Lra Lia Bool.
From Verif Require Import Base GeoUtilsModel GeoUtilsProofs CoordModel CoordProofs CoordProofs4 ConvModel ConvProofs ConvProofs2 ConvProofs3.
Import ListNotations.
Open Scope R_scope.

(** C26: 7 components exactly when all three velocities were given *)
Theorem C26_values : forall p a b d,
  cv_values (mkconv p (Some a) (Some b) (Some d)) = [c0 p; c1 p; c2 p; c3 p; a; b; d]
  /\ forall o1 o2 o3, o1 = None \/ o2 = None \/ o3 = None -> cv_values (mkconv p o1 o2 o3) = [c0 p; c1 p; c2 p; c3 p].
Proof. exact ConvProofs.values_spec. Qed.
Print Assumptions C26_values.

Theorem C26_length : forall c G from to k kw l,
  convert c G from to k kw = Ok l ->
  length l = (if velocities_provided k then 7 else 4)%nat.
Proof. exact ConvProofs.convert_length. Qed.
Print Assumptions C26_length.

Theorem C26_missing_kwargs : forall c G from to k kw,
  from <> to -> needs_spin from to = true ->
  fst kw = None \/ snd kw = None -> convert c G from to k kw = Err KeyError.
Proof. exact ConvProofs.convert_missing_kwargs. Qed.
Print Assumptions C26_missing_kwargs.

Theorem C26_invalid_spin : forall c G from to k M a,
  from <> to -> needs_spin from to = true ->
  prim a < 0 \/ 1 < prim a -> convert c G from to k (Some M, Some a) = Err ValueError.
Proof. exact ConvProofs.convert_invalid_spin. Qed.
Print Assumptions C26_invalid_spin.

(** every conversion of a position, indirect ones through Cartesian *)
Theorem C26_positions : forall c G from to t a b d,
  let k := mkconv (mkQ4 t a b d) None None None in
  (from = Cart /\ to = Sph -> forall kw, convert c G from to k kw = Ok (l4 (cart_to_sph t a b d)))
  /\ (from = Sph /\ to = Cart -> forall kw, convert c G from to k kw = Ok (l4 (sph_to_cart t a b d)))
  /\ (forall M s, 0 <= prim s <= 1 -> let al := prim s * (G * prim M / c ^ 2) in
  (from = Cart /\ to = BL -> convert c G from to k (Some M, Some s) = mapR l4 (cart_to_bl t a b d al))
  /\ (from = BL /\ to = Cart -> convert c G from to k (Some M, Some s) = Ok (l4 (bl_to_cart t a b d al)))
  /\ (from = Sph /\ to = BL -> convert c G from to k (Some M, Some s) =
  let q := sph_to_cart t a b d in mapR l4 (cart_to_bl (c0 q) (c1 q) (c2 q) (c3 q) al))
  /\ (from = BL /\ to = Sph -> convert c G from to k (Some M, Some s) =
  let q := bl_to_cart t a b d al in Ok (l4 (cart_to_sph (c0 q) (c1 q) (c2 q) (c3 q))))).
Proof. exact ConvProofs.convert_direct. Qed.
Print Assumptions C26_positions.

Theorem C26_velocities : forall c G from to t a b d u v w,
  let k := mkconv (mkQ4 t a b d) (Some u) (Some v) (Some w) in
  (from = Cart /\ to = Sph -> forall kw, convert c G from to k kw =
  let* x := cart_to_sph_vel a b d u v w in Ok (l7 (cart_to_sph t a b d) x))
  /\ (from = Sph /\ to = Cart -> forall kw, convert c G from to k kw =
  Ok (l7 (sph_to_cart t a b d) (sph_to_cart_vel a b d u v w)))
  /\ (forall M s, 0 <= prim s <= 1 -> let al := prim s * (G * prim M / c ^ 2) in
  (from = Cart /\ to = BL -> convert c G from to k (Some M, Some s) =
  let* p := cart_to_bl t a b d al in let* x := cart_to_bl_vel a b d al u v w in Ok (l7 p x))
  /\ (from = BL /\ to = Cart -> convert c G from to k (Some M, Some s) =
  let* x := bl_to_cart_vel a b d al u v w in Ok (l7 (bl_to_cart t a b d al) x))
  /\ (from = Sph /\ to = BL -> convert c G from to k (Some M, Some s) =
  let q := sph_to_cart t a b d in let y := sph_to_cart_vel a b d u v w in
  let* p := cart_to_bl (c0 q) (c1 q) (c2 q) (c3 q) al in
  let* x := cart_to_bl_vel (c1 q) (c2 q) (c3 q) al (v1 y) (v2 y) (v3 y) in Ok (l7 p x))
  /\ (from = BL /\ to = Sph -> convert c G from to k (Some M, Some s) =
  let q := bl_to_cart t a b d al in
  let* y := bl_to_cart_vel a b d al u v w in
  let* x := cart_to_sph_vel (c1 q) (c2 q) (c3 q) (v1 y) (v2 y) (v3 y) in
  Ok (l7 (cart_to_sph (c0 q) (c1 q) (c2 q) (c3 q)) x))).
Proof. exact ConvProofs.convert_direct_vel. Qed.
Print Assumptions C26_velocities.

Example C26_nonvacuous : convert 1 1 BL Sph (mkconv (mkQ4 0 1 1 1) None None None) (Some (NFloat 1), None) = Err KeyError
  /\ convert 1 1 Sph BL (mkconv (mkQ4 0 1 1 1) None (Some 1) None) (Some (NFloat 1), Some (NFloat 2)) = Err ValueError.
Proof. split; [apply C26_missing_kwargs|apply C26_invalid_spin]; simpl; try discriminate; try reflexivity; auto. right; simpl; lra. Qed.

(** C27: equal SI values give equal results, whatever the units *)
Theorem C27_position : forall c G s m n,
  same4 m n ->
  match mk_coord s m, mk_coord s n with
  | Ok k, Ok k' => co_position c k = co_position c k' /\ forall to kw, to_sys c G to k kw = to_sys c G to k' kw
  | Err e, Err e' => e = e'
  | _, _ => False
  end.
Proof. exact ConvProofs.units_position. Qed.
Print Assumptions C27_position.

Theorem C27_velocity : forall c G s m n a b d a' b' d',
  same4 m n -> same_arg a a' -> same_arg b b' -> same_arg d d' ->
  match mk_diffl s m a b d, mk_diffl s n a' b' d' with
  | Ok k, Ok k' =>
  df_position c k = df_position c k' /\ (forall to kw, diff_to c G to k kw = diff_to c G to k' kw)
  /\ forall g, snd (velocity c k g) = snd (velocity c k' g)
  /\ df_vt (fst (velocity c k g)) = df_vt (fst (velocity c k' g))
  | Err e, Err e' => e = e'
  | _, _ => False
  end.
Proof. exact ConvProofs.units_velocity. Qed.
Print Assumptions C27_velocity.

(** value v in a unit of k SI units is the same argument as v*k SI units *)
Theorem C27_rescale : forall v k d,
  same_arg (NQty (mkqty v k d)) (NQty (mkqty (v * k) 1 d)).
Proof. exact ConvProofs.same_arg_rescale. Qed.
Print Assumptions C27_rescale.

(** an object is built exactly from quantities of the documented dimensions, and holds them; otherwise the first bad argument decides the exception *)
Theorem C27_arguments : forall s n,
  match mk_coord s n with
  | Ok k => refusal (coordinate_dims s) (q4l n) = None /\ co_sys k = s /\ q4l n = map NQty (q4l (co_q k))
  | Err e => refusal (coordinate_dims s) (q4l n) = Some e
  end.
Proof. exact ConvProofs3.coord_arguments. Qed.
Print Assumptions C27_arguments.

Theorem C27_differential_arguments : forall s n a b d,
  match mk_diffl s n a b d with
  | Ok k => refusal (coordinate_dims s ++ velocity_dims s) (q4l n ++ [a; b; d]) = None /\ df_sys k = s
  /\ q4l n = map NQty (q4l (df_q k)) /\ [a; b; d] = map NQty (t3l (df_v k)) /\ df_vt k = None
  | Err e => refusal (coordinate_dims s ++ velocity_dims s) (q4l n ++ [a; b; d]) = Some e
  end.
Proof. exact ConvProofs3.diff_arguments. Qed.
Print Assumptions C27_differential_arguments.

(** position() is (c t, x, y, z) in SI units *)
Theorem C27_position_value : forall c s t x y z k,
  mk_coord s (mkQ4 (NQty t) (NQty x) (NQty y) (NQty z)) = Ok k ->
  co_position c k = mkQ4 (c * (q_val t * q_scale t)) (q_val x * q_scale x) (q_val y * q_scale y) (q_val z * q_scale z).
Proof. exact ConvProofs3.coord_position. Qed.
Print Assumptions C27_position_value.

Theorem C27_differential_position_value : forall c s t x y z a b d k,
  mk_diffl s (mkQ4 (NQty t) (NQty x) (NQty y) (NQty z)) a b d = Ok k ->
  df_position c k = mkQ4 (c * (q_val t * q_scale t)) (q_val x * q_scale x) (q_val y * q_scale y) (q_val z * q_scale z).
Proof. exact ConvProofs3.diff_position. Qed.
Print Assumptions C27_differential_position_value.

(** a converted object holds the converted SI values, in SI units of the documented dimensions *)
Theorem C27_conversion : forall c G s to t x y z k kw,
  mk_coord s (mkQ4 (NQty t) (NQty x) (NQty y) (NQty z)) = Ok k ->
  match convert c G s to (mkconv (mkQ4 (q_val t * q_scale t) (q_val x * q_scale x) (q_val y * q_scale y) (q_val z * q_scale z)) None None None) kw with
  | Ok l => exists k', to_sys c G to k kw = Ok k' /\ co_sys k' = to /\ q4l (co_q k') = si_values (coordinate_dims to) l
  | Err e => to_sys c G to k kw = Err e
  end.
Proof. exact ConvProofs3.coord_conversion. Qed.
Print Assumptions C27_conversion.

Theorem C27_differential_conversion : forall c G s to t x y z a b d k kw,
  mk_diffl s (mkQ4 (NQty t) (NQty x) (NQty y) (NQty z)) (NQty a) (NQty b) (NQty d) = Ok k ->
  match convert c G s to (mkconv (mkQ4 (q_val t * q_scale t) (q_val x * q_scale x) (q_val y * q_scale y) (q_val z * q_scale z))
  (Some (q_val a * q_scale a)) (Some (q_val b * q_scale b)) (Some (q_val d * q_scale d))) kw with
  | Ok l => exists k', diff_to c G to k kw = Ok k' /\ df_sys k' = to
  /\ q4l (df_q k') ++ t3l (df_v k') = si_values (coordinate_dims to ++ velocity_dims to) l
  | Err e => diff_to c G to k kw = Err e
  end.
Proof. exact ConvProofs3.diff_conversion. Qed.
Print Assumptions C27_differential_conversion.

Theorem C27_object_round_trip : forall c G n k kw,
  mk_coord Cart n = Ok k ->
  exists k1 k2, to_sys c G Sph k kw = Ok k1 /\ to_sys c G Cart k1 kw = Ok k2 /\ co_position c k2 = co_position c k.
Proof. exact ConvProofs.coord_round_trip. Qed.
Print Assumptions C27_object_round_trip.

Theorem C27_object_round_trip_bl : forall c G n k M a,
  mk_coord Cart n = Ok k -> 0 <= prim a <= 1 ->
  0 < bl_r (si (c1 (co_q k))) (si (c2 (co_q k))) (si (c3 (co_q k))) (prim a * (G * prim M / c ^ 2)) ->
  exists k1 k2, to_sys c G BL k (Some M, Some a) = Ok k1 /\ to_sys c G Cart k1 (Some M, Some a) = Ok k2
  /\ co_position c k2 = co_position c k.
Proof. exact ConvProofs.coord_round_trip_bl. Qed.
Print Assumptions C27_object_round_trip_bl.

Example C27_nonvacuous : same4 (mkQ4 (NQty (mkqty 2 60 DTime)) (NQty (mkqty 3 1000 DLength)) (NQty (mkqty 1 1 DLength)) (NQty (mkqty 1 1 DLength)))
   (mkQ4 (NQty (mkqty 120 1 DTime)) (NQty (mkqty 3000 1 DLength)) (NQty (mkqty 100 (1/100) DLength)) (NQty (mkqty 1 1 DLength))).
Proof. repeat split; unfold si; cbn [q_val q_scale]; try lra; simpl; lra. Qed.

(** C29 *)
Theorem C29_normalised : forall c g a b d u,
  symmetric4 g -> v0 c g a b d = Ok u -> norm2 g (mkQ4 u a b d) = c ^ 2.
Proof. exact ConvProofs2.v0_normalised. Qed.
Print Assumptions C29_normalised.

Theorem C29_defined_iff : forall c g a b d,
  (exists u, v0 c g a b d = Ok u) <->
  let '(A, B, C) := v0_coeffs c g a b d in 0 <= B ^ 2 - 4 * A * C /\ A <> 0.
Proof. exact ConvProofs2.v0_defined. Qed.
Print Assumptions C29_defined_iff.

Theorem C29_future : forall c g a b d,
  symmetric4 g -> 0 < mnth g 0 0 -> norm2 g (mkQ4 0 a b d) < c ^ 2 ->
  exists u, v0 c g a b d = Ok u /\ 0 < u.
Proof. exact ConvProofs2.v0_future. Qed.
Print Assumptions C29_future.

Theorem C29_velocity : forall c k g v,
  snd (velocity c k g) = Ok v ->
  df_sys k = me_sys g
  /\ (exists m, me_cov g (df_position c k) = Ok m /\ (symmetric4 m -> norm2 m v = c ^ 2))
  /\ (let '(a, b, d) := df_v k in c1 v = si a /\ c2 v = si b /\ c3 v = si d)
  /\ df_vt (fst (velocity c k g)) = Some (in_si (c0 v) DSpeed).
Proof. exact ConvProofs2.velocity_ok. Qed.
Print Assumptions C29_velocity.

Theorem C29_velocity_value : forall c s t x y z a b d k g v,
  mk_diffl s (mkQ4 (NQty t) (NQty x) (NQty y) (NQty z)) (NQty a) (NQty b) (NQty d) = Ok k ->
  snd (velocity c k g) = Ok v ->
  me_sys g = s /\ c1 v = q_val a * q_scale a /\ c2 v = q_val b * q_scale b /\ c3 v = q_val d * q_scale d
  /\ exists m, me_cov g (mkQ4 (c * (q_val t * q_scale t)) (q_val x * q_scale x) (q_val y * q_scale y) (q_val z * q_scale z)) = Ok m
  /\ v0 c m (q_val a * q_scale a) (q_val b * q_scale b) (q_val d * q_scale d) = Ok (c0 v)
  /\ df_vt (fst (velocity c k g)) = Some (mkqty (c0 v) 1 DSpeed).
Proof. exact ConvProofs3.diff_velocity. Qed.
Print Assumptions C29_velocity_value.

Theorem C29_mismatch : forall c k g,
  df_sys k <> me_sys g -> velocity c k g = (k, Err CoordinateError).
Proof. exact ConvProofs2.velocity_mismatch. Qed.
Print Assumptions C29_mismatch.

Theorem C29_frame : forall c k g,
  let k' := fst (velocity c k g) in
  df_sys k' = df_sys k /\ df_q k' = df_q k /\ df_v k' = df_v k /\ df_conv k' = df_conv k
  /\ ((exists e, snd (velocity c k g) = Err e) -> k' = k).
Proof. exact ConvProofs2.velocity_frame. Qed.
Print Assumptions C29_frame.

(** every history of velocity() calls *)
Theorem C29_history : forall c k gs,
  snd (vel_calls c k gs) = map (fun g => snd (velocity c k g)) gs
  /\ df_vt (fst (vel_calls c k gs)) =
  match last_ok (snd (vel_calls c k gs)) with Some v => Some (in_si (c0 v) DSpeed) | None => df_vt k end
  /\ df_sys (fst (vel_calls c k gs)) = df_sys k /\ df_q (fst (vel_calls c k gs)) = df_q k /\ df_v (fst (vel_calls c k gs)) = df_v k.
Proof. exact ConvProofs2.vel_history. Qed.
Print Assumptions C29_history.

Example C29_nonvacuous : let g := mkQ4 (mkQ4 1 0 0 0) (mkQ4 0 (-1) 0 0) (mkQ4 0 0 (-1) 0) (mkQ4 0 0 0 (-1)) in
  symmetric4 g /\ 0 < mnth g 0 0 /\ norm2 g (mkQ4 0 (1/2) 0 0) < 1 ^ 2.
Proof.
  cbv zeta. split; [|split].
  - intros i j Hi Hj. destruct i as [|[|[|[|i]]]]; [..|lia]; destruct j as [|[|[|[|j]]]]; try lia; reflexivity.
  - unfold mnth; simpl; lra.
  - unfold norm2, dot, mv, q4map, dot; cbn [c0 c1 c2 c3]. lra.
Qed.

(** C30 *)
Theorem C30_int : forall k (i : Z),
  (-4 <= i < 4)%Z ->
  getitem k (KInt i) = Ok (component k (Z.to_nat (i mod 4))).
Proof. exact ConvProofs2.getitem_int. Qed.
Print Assumptions C30_int.

Theorem C30_int_out : forall k (i : Z),
  (i < -4 \/ 4 <= i)%Z -> getitem k (KInt i) = Err IndexError.
Proof. exact ConvProofs2.getitem_int_out. Qed.
Print Assumptions C30_int_out.

Theorem C30_name : forall k s (i : nat),
  (i < 4)%nat -> nth_error (names (co_sys k)) i = Some s ->
  getitem k (KStr s) = Ok (component k i) /\ getitem k (KStr s) = getitem k (KInt (Z.of_nat i)).
Proof. exact ConvProofs2.getitem_name. Qed.
Print Assumptions C30_name.

Theorem C30_system : forall k,
  getitem k (KStr "system") = Ok (ISystem (co_sys k)).
Proof. exact ConvProofs2.getitem_system. Qed.
Print Assumptions C30_system.

Theorem C30_documented : 
  forall (k : coord),
  getitem k (KStr "t") = Ok (IQty (c0 (co_q k)))
  /\ (co_sys k = Cart -> getitem k (KStr "x") = Ok (IQty (c1 (co_q k))) /\ getitem k (KStr "y") = Ok (IQty (c2 (co_q k)))
  /\ getitem k (KStr "z") = Ok (IQty (c3 (co_q k))))
  /\ (co_sys k = Sph \/ co_sys k = BL -> getitem k (KStr "r") = Ok (IQty (c1 (co_q k))) /\ getitem k (KStr "theta") = Ok (IQty (c2 (co_q k)))
  /\ getitem k (KStr "phi") = Ok (IQty (c3 (co_q k)))).
Proof. exact ConvProofs2.getitem_documented. Qed.
Print Assumptions C30_documented.

Theorem C30_unknown : 
  forall (k : coord) (s : string),
  ~ In s (match co_sys k with Cart => ["t"; "x"; "y"; "z"; "system"] | _ => ["t"; "r"; "theta"; "phi"; "system"] end)%string ->
  getitem k (KStr s) = Err KeyError.
Proof. exact ConvProofs2.getitem_undocumented. Qed.
Print Assumptions C30_unknown.


(** C31 *)
Theorem C31_lorentz : forall c a b d,
  0 < c -> a * a + b * b + d * d < c ^ 2 ->
  exists y, lorentz_factor c a b d = Ok y /\ 1 <= y /\ (y = 1 <-> a = 0 /\ b = 0 /\ d = 0)
  /\ y * y * (1 - (a * a + b * b + d * d) / c ^ 2) = 1.
Proof. exact ConvProofs2.lorentz_def. Qed.
Print Assumptions C31_lorentz.

Theorem C31_superluminal : forall c a b d,
  0 < c -> c ^ 2 <= a * a + b * b + d * d -> lorentz_factor c a b d = Err NonFinite.
Proof. exact ConvProofs2.lorentz_superluminal. Qed.
Print Assumptions C31_superluminal.

Theorem C31_speed_only : forall c a b d a' b' d',
  a * a + b * b + d * d = a' * a' + b' * b' + d' * d' ->
  lorentz_factor c a b d = lorentz_factor c a' b' d'.
Proof. exact ConvProofs2.lorentz_speed_only. Qed.
Print Assumptions C31_speed_only.

