(** Boyer-Lindquist velocity round trips (C23), by uniqueness of derivatives. *)
From Coq Require Import Reals List ZArith Lra Lia Bool.
From Coquelicot Require Import Coquelicot.
From Verif Require Import Base Calc GeoUtilsModel GeoUtilsProofs CoordModel CoordProofs CoordProofs2 CoordProofs3 CoordProofs4 CoordProofs5.
Import ListNotations.
Open Scope R_scope.

Lemma D_line a v : is_derive (fun s => a + v * s) 0 v.
Proof. eapply D_eq; [apply D_plus; [apply D_const|apply D_mult; [apply D_const|apply D_id]]|]. cbv beta. ring. Qed.

Lemma D_unique (f : R -> R) x a b : is_derive f x a -> is_derive f x b -> a = b.
Proof. intros A B. apply is_derive_unique in A. apply is_derive_unique in B. congruence. Qed.

Lemma vel_cart_bl_cart t x y z al vx vy vz : x <> 0 -> 0 < bl_r x y z al ->
  exists s v, cart_to_bl t x y z al = Ok s /\ cart_to_bl_vel x y z al vx vy vz = Ok v
   /\ bl_to_cart_vel (c1 s) (c2 s) (c3 s) al (v1 v) (v2 v) (v3 v) = Ok (mk3 vx vy vz).
Proof.
  intros Hx Hr.
  destruct (cart_bl_velocity (fun s => x + vx * s) (fun s => y + vy * s) (fun s => z + vz * s) al 0 vx vy vz
    (D_line x vx) (D_line y vy) (D_line z vz)) as [v [P [E [L [D1 [D2 [[psi [[Q S] D3]] _]]]]]]].
  { replace (x + vx * 0) with x by ring. replace (y + vy * 0) with y by ring. replace (z + vz * 0) with z by ring. exact Hr. }
  { replace (x + vx * 0) with x by ring. exact Hx. }
  destruct (bl_cart_velocity (fun s => c1 (P s)) (fun s => c2 (P s)) psi al 0 _ _ _ D1 D2 D3) as [w [Ew [W1 [W2 W3]]]].
  { left. assert (L0 := locally_singleton _ _ L). cbv beta in L0.
    replace (x + vx * 0) with x in L0 by ring. replace (y + vy * 0) with y in L0 by ring. replace (z + vz * 0) with z in L0 by ring.
    rewrite (cart_to_bl_ok 0 x y z al Hr) in L0. injection L0 as L0. rewrite <- L0. cbn [c1]. lra. }
  assert (L0 := locally_singleton _ _ L). cbv beta in L0.
  replace (x + vx * 0) with x in * by ring. replace (y + vy * 0) with y in * by ring. replace (z + vz * 0) with z in * by ring.
  exists (mkQ4 t (bl_r x y z al) (acos (z / bl_r x y z al)) (atan2 y x)), v.
  split; [apply cart_to_bl_ok; exact Hr|]. split; [exact E|].
  rewrite (cart_to_bl_ok 0 x y z al Hr) in L0. injection L0 as L0. cbn [c1 c2 c3].
  assert (Q' := Q). rewrite <- L0 in Q'. cbn [c3] in Q'. rewrite Q' in Ew. rewrite <- L0 in Ew. cbn [c1 c2] in Ew.
  rewrite Ew. f_equal.
  assert (Hpath : locally 0 (fun s => bl_to_cart s (c1 (P s)) (c2 (P s)) (psi s) al = mkQ4 s (x + vx * s) (y + vy * s) (z + vz * s))).
  { generalize (filter_and _ _ L S). apply filter_imp. intros s [Ls [Ss Cs]].
    assert (Hrs : 0 < bl_r (x + vx * s) (y + vy * s) (z + vz * s) al).
    { destruct (Rle_lt_or_eq_dec _ _ (bl_r_nonneg (x + vx * s) (y + vy * s) (z + vz * s) al)) as [H|H]; [exact H|].
      symmetry in H. rewrite (cart_to_bl_fails s _ _ _ _ H) in Ls. discriminate. }
    destruct (cart_bl_cart s _ _ _ al Hrs) as [u [Eu [Fu _]]]. rewrite Ls in Eu. injection Eu as Eu.
    rewrite <- Eu in Fu. assert (C0 : c0 (P s) = s).
    { apply (f_equal c0) in Fu. exact Fu. }
    etransitivity; [|exact Fu]. unfold bl_to_cart. rewrite Ss, Cs, C0. reflexivity. }
  clear - Hpath W1 W2 W3.
  destruct w as [w1 w2 w3]; cbn [v1 v2 v3] in *. f_equal.
  - refine (D_unique _ _ _ _ W1 _). apply D_loc with (f := fun s => x + vx * s); [|apply D_line].
    revert Hpath; apply filter_imp; intros s H. rewrite H. reflexivity.
  - refine (D_unique _ _ _ _ W2 _). apply D_loc with (f := fun s => y + vy * s); [|apply D_line].
    revert Hpath; apply filter_imp; intros s H. rewrite H. reflexivity.
  - refine (D_unique _ _ _ _ W3 _). apply D_loc with (f := fun s => z + vz * s); [|apply D_line].
    revert Hpath; apply filter_imp; intros s H. rewrite H. reflexivity.
Qed.

Lemma vel_bl_cart_bl t r th p al vr vth vp : 0 < r -> 0 < th < PI -> - PI < p <= PI -> cos p <> 0 ->
  let c := bl_to_cart t r th p al in
  exists v, bl_to_cart_vel r th p al vr vth vp = Ok v
   /\ cart_to_bl_vel (c1 c) (c2 c) (c3 c) al (v1 v) (v2 v) (v3 v) = Ok (mk3 vr vth vp).
Proof.
  intros Hr Hth Hp Hc c.
  destruct (bl_cart_velocity (fun s => r + vr * s) (fun s => th + vth * s) (fun s => p + vp * s) al 0 vr vth vp
    (D_line _ _) (D_line _ _) (D_line _ _)) as [v [E [D1 [D2 D3]]]].
  { left. lra. }
  replace (r + vr * 0) with r in * by ring. replace (th + vth * 0) with th in * by ring. replace (p + vp * 0) with p in * by ring.
  exists v; split; [exact E|].
  assert (RT := bl_cart_bl t r th p al Hr Hth Hp). cbv zeta in RT. fold c in RT.
  assert (Hx : c1 c <> 0).
  { unfold c, bl_to_cart; cbn [c1]. repeat apply Rmult_integral_contrapositive_currified; [|assert (0 < sin th) by (apply sin_gt_0; lra); lra|exact Hc].
    apply Rgt_not_eq. apply sqrt_lt_R0. nra. }
  assert (Hb : bl_r (c1 c) (c2 c) (c3 c) al = r) by (apply (bl_cart_r t r th p al); lra).
  set (X := fun s => c1 (bl_to_cart s (r + vr * s) (th + vth * s) (p + vp * s) al)) in *.
  set (Y := fun s => c2 (bl_to_cart s (r + vr * s) (th + vth * s) (p + vp * s) al)) in *.
  set (Z := fun s => c3 (bl_to_cart s (r + vr * s) (th + vth * s) (p + vp * s) al)) in *.
  assert (X0 : X 0 = c1 c) by (unfold X, c, bl_to_cart; cbn [c1 c2 c3]; rewrite !Rmult_0_r, !Rplus_0_r; reflexivity).
  assert (Y0 : Y 0 = c2 c) by (unfold Y, c, bl_to_cart; cbn [c1 c2 c3]; rewrite !Rmult_0_r, !Rplus_0_r; reflexivity).
  assert (Z0 : Z 0 = c3 c) by (unfold Z, c, bl_to_cart; cbn [c1 c2 c3]; rewrite !Rmult_0_r, !Rplus_0_r; reflexivity).
  destruct (cart_bl_velocity X Y Z al 0 _ _ _ D1 D2 D3) as [w [P [Ew [L [W1 [W2 [[psi [[Q S] W3]] _]]]]]]].
  { rewrite X0, Y0, Z0, Hb. exact Hr. }
  { rewrite X0. exact Hx. }
  rewrite X0, Y0, Z0 in Ew. rewrite Ew. f_equal.
  assert (near : forall (f : R -> R) (P : R -> Prop) a d, is_derive f 0 d -> locally a P -> f 0 = a -> locally 0 (fun s => P (f s))).
  { intros f P0 a d Df HP Ha. assert (C := ex_derive_continuous f 0 (ex_intro _ d Df)). rewrite <- Ha in HP. exact (C P0 HP). }
  assert (lt_near : forall a b, a < b -> locally b (fun u => a < u)).
  { intros a b H. apply (open_gt a). exact H. }
  assert (gt_near : forall a b, b < a -> locally b (fun u => u < a)).
  { intros a b H. apply (open_lt a). exact H. }
  assert (N1 : locally 0 (fun s => 0 < r + vr * s)) by (apply (near (fun s => r + vr * s) (fun u => 0 < u) r vr (D_line _ _)); [apply lt_near; lra|ring]).
  assert (N2 : locally 0 (fun s => 0 < th + vth * s)) by (apply (near (fun s => th + vth * s) (fun u => 0 < u) th vth (D_line _ _)); [apply lt_near; lra|ring]).
  assert (N3 : locally 0 (fun s => th + vth * s < PI)) by (apply (near (fun s => th + vth * s) (fun u => u < PI) th vth (D_line _ _)); [apply gt_near; lra|ring]).
  assert (R1 : locally 0 (fun s => c1 (P s) = r + vr * s /\ c2 (P s) = th + vth * s /\ sin (c3 (P s)) = sin (p + vp * s) /\ cos (c3 (P s)) = cos (p + vp * s))).
  { generalize (filter_and _ _ N1 (filter_and _ _ N2 (filter_and _ _ N3 L))). apply filter_imp.
    intros s [H1 [H2 [H3 H4]]].
    assert (exists q, - PI < q <= PI /\ sin q = sin (p + vp * s) /\ cos q = cos (p + vp * s)) as [q [Hq [Sq Cq]]].
    { exists (atan2 (sin (p + vp * s)) (cos (p + vp * s))). split; [apply atan2_range|].
      destruct (atan2_polar (cos (p + vp * s)) (sin (p + vp * s))) as [A B].
      assert (Hh : hypot (cos (p + vp * s)) (sin (p + vp * s)) = 1).
      { unfold hypot. rewrite <- sqrt_1. f_equal. assert (U := sin2_cos2 (p + vp * s)). unfold Rsqr in U. lra. }
      rewrite Hh in A, B. split; lra. }
    assert (T := bl_cart_bl s _ _ q al H1 (conj H2 H3) Hq). cbv zeta in T.
    assert (EX : X s = c1 (bl_to_cart s (r + vr * s) (th + vth * s) q al)) by (unfold X, bl_to_cart; cbn [c1]; rewrite Cq; reflexivity).
    assert (EY : Y s = c2 (bl_to_cart s (r + vr * s) (th + vth * s) q al)) by (unfold Y, bl_to_cart; cbn [c2]; rewrite Sq; reflexivity).
    assert (EZ : Z s = c3 (bl_to_cart s (r + vr * s) (th + vth * s) q al)) by reflexivity.
    rewrite <- EX, <- EY, <- EZ in T. change (c0 (bl_to_cart s (r + vr * s) (th + vth * s) q al)) with s in T.
    rewrite H4 in T. injection T as T. rewrite T. cbn [c1 c2 c3]. tauto. }
  destruct w as [w1 w2 w3]; cbn [v1 v2 v3] in *. f_equal.
  - refine (D_unique _ _ _ _ W1 _). apply D_loc with (f := fun s => r + vr * s); [|apply D_line].
    revert R1; apply filter_imp; intros s H. symmetry. apply H.
  - refine (D_unique _ _ _ _ W2 _). apply D_loc with (f := fun s => th + vth * s); [|apply D_line].
    revert R1; apply filter_imp; intros s H. symmetry. apply H.
  - assert (U : locally 0 (fun s => sin (psi s) = sin (p + vp * s) /\ cos (psi s) = cos (p + vp * s))).
    { generalize (filter_and _ _ R1 S). apply filter_imp. intros s [[_ [_ [A B]]] [A' B']]. split; congruence. }
    assert (U0 := locally_singleton _ _ U). cbv beta in U0. destruct U0 as [Us Uc].
    rewrite Rmult_0_r, Rplus_0_r in Us, Uc.
    (* differentiate sin(psi) and cos(psi) *)
    assert (S1 : cos (psi 0) * w3 = cos p * vp).
    { refine (D_unique (fun s => sin (psi s)) 0 _ _ _ _).
      - eapply D_eq; [apply D_sin; exact W3|]. cbv beta. ring.
      - apply D_loc with (f := fun s => sin (p + vp * s)).
        + revert U; apply filter_imp; intros s H. symmetry. apply H.
        + eapply D_eq; [apply D_sin; apply D_line|]. cbv beta. rewrite Rmult_0_r, Rplus_0_r. ring. }
    rewrite Uc in S1. apply Rmult_eq_reg_l with (cos p); assumption.
Qed.
