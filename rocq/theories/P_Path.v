(* generated from tools/P/P_Path.v.in by tools/genp.py: statements only, proofs are references *)
(** Property C125: chains of coordinate conversions (einsteinpy.coordinates). *)
From Coq Require Import String Reals List ZArith Lra Lia Bool.
From Coquelicot Require Import Coquelicot.
From Verif Require Import Base GeoUtilsModel CoordModel ConvModel ConvPath.
Import ListNotations.
Open Scope R_scope.

(** C125: every chain of conversions of a position succeeds and stands for the same event *)
Theorem C125_event : forall c G M a path,
  forall s n k, 0 <= prim a <= 1 -> let al := prim a * (G * prim M / c ^ 2) in mk_coord s n = Ok k -> hops s path -> (In BL path -> ~ on_disc al (place al s (si4 (co_q k)))) ->
  exists k', walk c G M a path k = Ok k' /\ co_sys k' = last path s /\ place al (last path s) (si4 (co_q k')) = place al s (si4 (co_q k)) /\ (path <> [] -> in_range (last path s) (si4 (co_q k'))).
Proof. exact ConvPath.walk_ok. Qed.
Print Assumptions C125_event.

(** two chains that end in the same system end in the same object *)
Theorem C125_same_object : forall c G M a path1 path2 s1 s2 n1 n2 k1 k2,
  0 <= prim a <= 1 -> let al := prim a * (G * prim M / c ^ 2) in mk_coord s1 n1 = Ok k1 -> mk_coord s2 n2 = Ok k2 ->
  place al s1 (si4 (co_q k1)) = place al s2 (si4 (co_q k2)) -> hops s1 path1 -> hops s2 path2 -> path1 <> [] -> path2 <> [] -> last path1 s1 = last path2 s2 ->
  (In BL (path1 ++ path2) -> ~ on_disc al (place al s1 (si4 (co_q k1)))) -> exists k, walk c G M a path1 k1 = Ok k /\ walk c G M a path2 k2 = Ok k.
Proof. exact ConvPath.walk_unique. Qed.
Print Assumptions C125_same_object.

(** a closed chain returns the original values *)
Theorem C125_closed : forall c G M a path s n k,
  0 <= prim a <= 1 -> let al := prim a * (G * prim M / c ^ 2) in mk_coord s n = Ok k -> path <> [] -> hops s path -> last path s = s -> inner s (si4 (co_q k)) -> (In BL path -> ~ on_disc al (place al s (si4 (co_q k)))) ->
  exists k', walk c G M a path k = Ok k' /\ co_sys k' = s /\ si4 (co_q k') = si4 (co_q k).
Proof. exact ConvPath.walk_closed. Qed.
Print Assumptions C125_closed.

(** vplace is the velocity of the event the moving coordinates stand for *)
Theorem C125_velocity_meaning : forall al s (p : R -> V4) t0 v,
  is_derive (fun t => c1 (p t)) t0 (v1 v) -> is_derive (fun t => c2 (p t)) t0 (v2 v) -> is_derive (fun t => c3 (p t)) t0 (v3 v) -> (s = BL -> c1 (p t0) <> 0 \/ al <> 0) ->
  let w := vplace al s (p t0) v in is_derive (fun t => c1 (place al s (p t))) t0 (v1 w) /\ is_derive (fun t => c2 (place al s (p t))) t0 (v2 w) /\ is_derive (fun t => c3 (place al s (p t))) t0 (v3 w).
Proof. exact ConvPath.vplace_velocity. Qed.
Print Assumptions C125_velocity_meaning.

(** with velocities: the same event and the same velocity *)
Theorem C125_motion : forall c G M a path,
  forall s n x y z k, 0 <= prim a <= 1 -> let al := prim a * (G * prim M / c ^ 2) in mk_diffl s n x y z = Ok k -> hops s path ->
  let e := place al s (si4 (df_q k)) in (c1 e <> 0 \/ c2 e <> 0) -> (In BL path -> c1 e <> 0 /\ ~ on_disc al e) ->
  exists k', walkv c G M a path k = Ok k' /\ df_sys k' = last path s /\ place al (last path s) (si4 (df_q k')) = e /\
  vplace al (last path s) (si4 (df_q k')) (si3 (df_v k')) = vplace al s (si4 (df_q k)) (si3 (df_v k)) /\ (path <> [] -> in_range (last path s) (si4 (df_q k'))).
Proof. exact ConvPath.walkv_ok. Qed.
Print Assumptions C125_motion.

Theorem C125_motion_same_object : forall c G M a path1 path2 s1 s2 n1 n2 x1 y1 z1 x2 y2 z2 k1 k2,
  0 <= prim a <= 1 -> let al := prim a * (G * prim M / c ^ 2) in mk_diffl s1 n1 x1 y1 z1 = Ok k1 -> mk_diffl s2 n2 x2 y2 z2 = Ok k2 ->
  let e := place al s1 (si4 (df_q k1)) in e = place al s2 (si4 (df_q k2)) -> vplace al s1 (si4 (df_q k1)) (si3 (df_v k1)) = vplace al s2 (si4 (df_q k2)) (si3 (df_v k2)) ->
  hops s1 path1 -> hops s2 path2 -> path1 <> [] -> path2 <> [] -> last path1 s1 = last path2 s2 -> (c1 e <> 0 \/ c2 e <> 0) -> (In BL (path1 ++ path2) -> c1 e <> 0 /\ ~ on_disc al e) ->
  exists k, walkv c G M a path1 k1 = Ok k /\ walkv c G M a path2 k2 = Ok k.
Proof. exact ConvPath.walkv_unique. Qed.
Print Assumptions C125_motion_same_object.

Theorem C125_motion_closed : forall c G M a path s n x y z k,
  0 <= prim a <= 1 -> let al := prim a * (G * prim M / c ^ 2) in mk_diffl s n x y z = Ok k -> path <> [] -> hops s path -> last path s = s -> inner s (si4 (df_q k)) -> (s = BL -> cos (c3 (si4 (df_q k))) <> 0) ->
  let e := place al s (si4 (df_q k)) in (c1 e <> 0 \/ c2 e <> 0) -> (In BL path -> c1 e <> 0 /\ ~ on_disc al e) ->
  exists k', walkv c G M a path k = Ok k' /\ df_sys k' = s /\ si4 (df_q k') = si4 (df_q k) /\ si3 (df_v k') = si3 (df_v k).
Proof. exact ConvPath.walkv_closed. Qed.
Print Assumptions C125_motion_closed.

(** a moving body at (3, 4, 2) and a chain of six conversions satisfy the hypotheses *)
Example C125_nonvacuous : let M := NFloat 1 in let a := NFloat (/ 2) in let al := prim a * (1 * prim M / 1 ^ 2) in let path := [Sph; BL; Cart; BL; Sph; Cart] in
  exists k kv, ex_coord = Ok k /\ ex_diffl = Ok kv /\ 0 <= prim a <= 1 /\ hops Cart path /\ si4 (co_q k) = mkQ4 0 3 4 2 /\ si4 (df_q kv) = mkQ4 0 3 4 2 /\ si3 (df_v kv) = mk3 1 2 5 /\
    let e := place al Cart (si4 (df_q kv)) in c1 e <> 0 /\ ~ on_disc al e.
Proof. exact ex_hyps. Qed.
