(** Coordinate and differential objects: which arguments are accepted, what the objects hold, and what their conversions return. *)
From Coq Require Import String Reals List ZArith Lra Lia Bool.
From Verif Require Import Base GeoUtilsModel CoordModel ConvModel ConvProofs.
Import ListNotations.
Open Scope R_scope.

(** The documented units: seconds and metres, radians for angles, and their rates *)
Definition coordinate_dims (s : system) : list dim :=
  match s with
  | Cart => [DTime; DLength; DLength; DLength]
  | Sph => [DTime; DLength; DAngle; DAngle]
  | BL => [DTime; DLength; DAngle; DAngle]
  end.
Definition velocity_dims (s : system) : list dim :=
  match s with
  | Cart => [DSpeed; DSpeed; DSpeed]
  | Sph => [DSpeed; DAngSpeed; DAngSpeed]
  | BL => [DSpeed; DAngSpeed; DAngSpeed]
  end.
Definition q4l {A} (q : Q4 A) : list A := [c0 q; c1 q; c2 q; c3 q].
Definition t3l {A} (q : A * A * A) : list A := let '(a, b, d) := q in [a; b; d].
Definition dim_dec (a b : dim) : {a = b} + {a <> b}.
Proof. decide equality. Defined.
(** the exception for the first argument refused: a plain number TypeError, a quantity of another dimension UnitsError (a ValueError) *)
Fixpoint refusal (ds : list dim) (args : list pynum) : option exn :=
  match ds, args with
  | d :: ds, NFloat _ :: _ => Some TypeError
  | d :: ds, NQty q :: args => if dim_dec (q_dim q) d then refusal ds args else Some ValueError
  | _, _ => None
  end.

Ltac four n0 n1 n2 n3 :=
  let x := fresh in let a := fresh in let k := fresh in let d := fresh in
  destruct n0 as [x|[a k d]]; [cbn; reflexivity|]; destruct d; try (cbn; reflexivity);
  destruct n1 as [x|[? ? d]]; try (cbn; reflexivity); destruct d; try (cbn; reflexivity);
  destruct n2 as [x|[? ? d]]; try (cbn; reflexivity); destruct d; try (cbn; reflexivity);
  destruct n3 as [x|[? ? d]]; try (cbn; reflexivity); destruct d; try (cbn; reflexivity).

Lemma coord_arguments s n :
  match mk_coord s n with
  | Ok k => refusal (coordinate_dims s) (q4l n) = None /\ co_sys k = s /\ q4l n = map NQty (q4l (co_q k))
  | Err e => refusal (coordinate_dims s) (q4l n) = Some e
  end.
Proof.
  destruct n as [n0 n1 n2 n3]. unfold mk_coord, qinput4, q4l, coordinate_dims.
  destruct s; cbn [pos_dims q4map2 c0 c1 c2 c3 q4seq]; four n0 n1 n2 n3; cbn; repeat split; reflexivity.
Qed.

Lemma diff_arguments s n a b d :
  match mk_diffl s n a b d with
  | Ok k => refusal (coordinate_dims s ++ velocity_dims s) (q4l n ++ [a; b; d]) = None /\ df_sys k = s
            /\ q4l n = map NQty (q4l (df_q k)) /\ [a; b; d] = map NQty (t3l (df_v k)) /\ df_vt k = None
  | Err e => refusal (coordinate_dims s ++ velocity_dims s) (q4l n ++ [a; b; d]) = Some e
  end.
Proof.
  destruct n as [n0 n1 n2 n3]. unfold mk_diffl, qinput4, q4l, coordinate_dims, velocity_dims.
  destruct s; cbn [pos_dims vel_dims q4map2 c0 c1 c2 c3 q4seq]; four n0 n1 n2 n3;
  (destruct a as [x|[? ? e]]; [cbn; reflexivity|]; destruct e; try (cbn; reflexivity));
  (destruct b as [x|[? ? e]]; [cbn; reflexivity|]; destruct e; try (cbn; reflexivity));
  (destruct d as [x|[? ? e]]; [cbn; reflexivity|]; destruct e; try (cbn; reflexivity)); cbn; repeat split; reflexivity.
Qed.

(** position(): (c t, x, y, z) in SI units *)
Lemma coord_position c s t x y z k :
  mk_coord s (mkQ4 (NQty t) (NQty x) (NQty y) (NQty z)) = Ok k ->
  co_position c k = mkQ4 (c * (q_val t * q_scale t)) (q_val x * q_scale x) (q_val y * q_scale y) (q_val z * q_scale z).
Proof.
  intros H. assert (A := coord_arguments s (mkQ4 (NQty t) (NQty x) (NQty y) (NQty z))). rewrite H in A. destruct A as [_ [_ A]].
  unfold q4l in A. cbn in A. injection A as -> -> -> ->. reflexivity.
Qed.
Lemma diff_position c s t x y z a b d k :
  mk_diffl s (mkQ4 (NQty t) (NQty x) (NQty y) (NQty z)) a b d = Ok k ->
  df_position c k = mkQ4 (c * (q_val t * q_scale t)) (q_val x * q_scale x) (q_val y * q_scale y) (q_val z * q_scale z).
Proof.
  intros H. assert (A := diff_arguments s (mkQ4 (NQty t) (NQty x) (NQty y) (NQty z)) a b d). rewrite H in A. destruct A as [_ [_ [A _]]].
  unfold q4l in A. cbn in A. injection A as -> -> -> ->. reflexivity.
Qed.

(** the converted object holds, in the SI units documented for the new system, the numbers the conversion returns for the SI values of the old object *)
Definition si_values (ds : list dim) (xs : list R) : list quantity := map (fun p => mkqty (snd p) 1 (fst p)) (combine ds xs).

Lemma coord_conversion c G s to t x y z k kw :
  mk_coord s (mkQ4 (NQty t) (NQty x) (NQty y) (NQty z)) = Ok k ->
  match convert c G s to (mkconv (mkQ4 (q_val t * q_scale t) (q_val x * q_scale x) (q_val y * q_scale y) (q_val z * q_scale z)) None None None) kw with
  | Ok l => exists k', to_sys c G to k kw = Ok k' /\ co_sys k' = to /\ q4l (co_q k') = si_values (coordinate_dims to) l
  | Err e => to_sys c G to k kw = Err e
  end.
Proof.
  intros H. assert (E : co_sys k = s /\ co_conv k = mkconv (mkQ4 (q_val t * q_scale t) (q_val x * q_scale x) (q_val y * q_scale y) (q_val z * q_scale z)) None None None).
  { assert (A := coord_arguments s (mkQ4 (NQty t) (NQty x) (NQty y) (NQty z))). rewrite H in A. destruct A as [_ [A0 A]].
    split; [exact A0|]. revert H. unfold mk_coord. destruct (qinput4 _ _) as [q|e] eqn:Q; cbn [bindR]; [|discriminate].
    intros H. apply (f_equal (fun r => match r with Ok k => k | Err _ => k end)) in H. subst k. cbn [co_q] in A. unfold q4l in A. destruct q as [a0 a1 a2 a3]. cbn in A. injection A as -> -> -> ->. reflexivity. }
  destruct E as [E1 E2]. unfold to_sys. rewrite E1, E2. set (cv := mkconv _ None None None).
  destruct (convert c G s to cv kw) as [l|e] eqn:C; cbn [bindR]; [|reflexivity].
  assert (L := convert_length _ _ _ _ _ _ _ C). cbn in L. destruct l as [|l0 [|l1 [|l2 [|l3 [|l4' l]]]]]; try discriminate L.
  destruct to; cbn; eexists; repeat split; reflexivity.
Qed.

Lemma diff_conversion c G s to t x y z a b d k kw :
  mk_diffl s (mkQ4 (NQty t) (NQty x) (NQty y) (NQty z)) (NQty a) (NQty b) (NQty d) = Ok k ->
  match convert c G s to (mkconv (mkQ4 (q_val t * q_scale t) (q_val x * q_scale x) (q_val y * q_scale y) (q_val z * q_scale z))
                            (Some (q_val a * q_scale a)) (Some (q_val b * q_scale b)) (Some (q_val d * q_scale d))) kw with
  | Ok l => exists k', diff_to c G to k kw = Ok k' /\ df_sys k' = to
            /\ q4l (df_q k') ++ t3l (df_v k') = si_values (coordinate_dims to ++ velocity_dims to) l
  | Err e => diff_to c G to k kw = Err e
  end.
Proof.
  intros H. assert (E : df_sys k = s /\ df_conv k = mkconv (mkQ4 (q_val t * q_scale t) (q_val x * q_scale x) (q_val y * q_scale y) (q_val z * q_scale z))
                            (Some (q_val a * q_scale a)) (Some (q_val b * q_scale b)) (Some (q_val d * q_scale d))).
  { assert (A := diff_arguments s (mkQ4 (NQty t) (NQty x) (NQty y) (NQty z)) (NQty a) (NQty b) (NQty d)). rewrite H in A. destruct A as [_ [A0 [A [A1 _]]]].
    split; [exact A0|]. revert H. unfold mk_diffl. destruct (qinput4 _ _) as [q|e]; cbn [bindR]; [|discriminate]. destruct (vel_dims s) as [[d1 d2] d3].
    destruct (qinput d1 _) as [va|e]; cbn [bindR]; [|discriminate]. destruct (qinput d2 _) as [vb|e]; cbn [bindR]; [|discriminate]. destruct (qinput d3 _) as [vd|e]; cbn [bindR]; [|discriminate].
    intros H. apply (f_equal (fun r => match r with Ok k => k | Err _ => k end)) in H. subst k. cbn [df_q df_v] in A, A1. unfold q4l in A. unfold t3l in A1. destruct q as [a0 a1 a2 a3]. cbn in A, A1.
    injection A as -> -> -> ->. injection A1 as -> -> ->. reflexivity. }
  destruct E as [E1 E2]. unfold diff_to. rewrite E1, E2. set (cv := mkconv _ _ _ _).
  destruct (convert c G s to cv kw) as [l|e] eqn:C; cbn [bindR]; [|reflexivity].
  assert (L := convert_length _ _ _ _ _ _ _ C). cbn in L. destruct l as [|l0 [|l1 [|l2 [|l3 [|l4' [|l5 [|l6 [|l7 l]]]]]]]]; try discriminate L.
  destruct to; cbn; eexists; repeat split; reflexivity.
Qed.

(** velocity(metric): the time component solves the quadratic of v0 at the metric of the object's position *)
Lemma diff_velocity c s t x y z a b d k g v :
  mk_diffl s (mkQ4 (NQty t) (NQty x) (NQty y) (NQty z)) (NQty a) (NQty b) (NQty d) = Ok k ->
  snd (velocity c k g) = Ok v ->
  me_sys g = s /\ c1 v = q_val a * q_scale a /\ c2 v = q_val b * q_scale b /\ c3 v = q_val d * q_scale d
  /\ exists m, me_cov g (mkQ4 (c * (q_val t * q_scale t)) (q_val x * q_scale x) (q_val y * q_scale y) (q_val z * q_scale z)) = Ok m
     /\ v0 c m (q_val a * q_scale a) (q_val b * q_scale b) (q_val d * q_scale d) = Ok (c0 v)
     /\ df_vt (fst (velocity c k g)) = Some (mkqty (c0 v) 1 DSpeed).
Proof.
  intros H. assert (P := diff_position c _ _ _ _ _ _ _ _ _ H).
  assert (A := diff_arguments s (mkQ4 (NQty t) (NQty x) (NQty y) (NQty z)) (NQty a) (NQty b) (NQty d)). rewrite H in A. destruct A as [_ [A0 [_ [A1 _]]]].
  destruct (df_v k) as [[qa qb] qd] eqn:Dv. cbn in A1. injection A1 as <- <- <-.
  unfold velocity, set_v_t. rewrite P, A0, Dv. destruct (system_eqb s (me_sys g)) eqn:S; [|discriminate].
  destruct (me_cov g _) as [m|e] eqn:Em; cbn [bindR]; [|discriminate].
  destruct (v0 c m (si a) (si b) (si d)) as [vt|e] eqn:V; cbn [bindR]; [|discriminate]. cbn.
  intros Hv. apply Ok_inj in Hv. subst v. cbn.
  split; [destruct s, (me_sys g); try discriminate S; reflexivity|]. repeat split. exists m. repeat split. exact V.
Qed.
