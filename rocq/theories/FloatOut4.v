(** C123: Cartesian coordinates in, Cartesian trajectory out, for the metric classes in floating point. *)
From Coq Require Import String Reals List ZArith Lra Lia Bool.
From Coquelicot Require Import Coquelicot.
From Verif Require Import Base Calc DualModel GeoUtilsModel CoordModel CoordProofs CoordProofs2 CoordProofs3 CoordProofs4 CoordProofs5 CoordProofs6 ConvModel ConvProofs2 MetricModel MetricSpec MetricProofs MetricProofs2 MetricProofs3 MetricProofs4 MetricUnify MetricHamilton2 FloatModel FloatTrack FloatGlobal FloatRK FloatRKG FloatCoordModel FloatCoord FloatCoordMain FloatMetricModel FloatMetric FloatMetric6.
From Verif Require Import FloatVel FloatFlow FloatInv FloatCart.
From Verif Require Import FloatOut FloatOut2 FloatOut3.
Import ListNotations.
Open Scope R_scope.

(** the spatial velocity of a 4-velocity, and of the state vector of RK4naive *)
Definition vel3 (w : V4) : V3 := mk3 (c1 w) (c2 w) (c3 w).
(** conversion.py:219-244 (SphericalConversion.convert_cartesian) and 355-406 (BoyerLindquistConversion.convert_cartesian) applied to the state after k steps *)
Definition cart_outA (B : arith2) (e : fenv) (conv back : arith2 -> V4 -> V3 -> R -> Res (V4 * V3)) (c : R) (cov : V4 -> Res M4) (f : R -> list R -> Res (list R)) (p : V4) (v : V3) (al tb h : R) (k : nat) : Res (V4 * V3) :=
  let* s := cart_flowA B e conv c cov f p v al tb h k in back B (state_pos s) (vel3 (state_vel s)) al.
Definition out_rounded (K Kin c : R) (conv back : arith2 -> V4 -> V3 -> R -> Res (V4 * V3)) (covE : fenv -> V4 -> Res M4) (fE : fenv -> R -> list R -> Res (list R)) (p : V4) (v : V3) (al : R) (Y : R -> V4) (V : R -> V3) (T : R) : Prop :=
  exists C r, 0 <= C /\ 0 < r /\ forall u B e fp fv fal, 0 <= u -> accurate2 u B -> good K u e -> close4 (Kin * u) fp p -> close3 (Kin * u) fv v -> close (Kin * u) fal al ->
  forall h N tb, 0 < h <= r -> INR N * h <= T -> u / h <= r -> forall k, (k <= N)%nat ->
  exists q x, cart_outA B e conv back c (covE e) (fE e) fp fv fal tb h k = Ok (q, x) /\ close4 (C * (h ^ 4 + u / h)) q (Y (INR k * h)) /\ close3 (C * (h ^ 4 + u / h)) x (V (INR k * h)).
(** Y is a curve in Cartesian coordinates (Y = (c t, x, y, z)) and V the rate of change of (x, y, z) *)
Definition cart_curve (Y : R -> V4) (V : R -> V3) (T : R) : Prop :=
  forall t, 0 <= t <= T -> is_derive (fun s => c1 (Y s)) t (v1 (V t)) /\ is_derive (fun s => c2 (Y s)) t (v2 (V t)) /\ is_derive (fun s => c3 (Y s)) t (v3 (V t)).

Lemma out_gen K Kin c conv back (to : V4 -> V3 -> R -> V4 * V3) covE fE p v al s' w' X W T m :
  0 <= Kin -> 0 < T ->
  eventually_rounded Kin p v al (fun C u B fp fv fal => exists s w, conv B fp fv fal = Ok (s, w) /\ close_sph (C * u) s s' /\ close3 (C * u) w w') ->
  (forall Kin' k, 0 <= Kin' -> flow_rounded K Kin' c covE fE (turn k s') (lift3 w') (fun t => turn k (X t)) W T) ->
  (forall M, uniform back to M m) -> (forall k x w, to (turn k x) w al = to x w al) ->
  (forall t, 0 <= t <= T -> m <= c1 (X t) ^ 2 + al ^ 2) ->
  (forall t i, 0 <= t <= T -> (i < 4)%nat -> continuous (fun t => q4nth (X t) i) t /\ continuous (fun t => q4nth (W t) i) t) ->
  out_rounded K Kin c conv back covE fE p v al (fun t => fst (to (X t) (vel3 (W t)) al)) (fun t => snd (to (X t) (vel3 (W t)) al)) T.
Proof.
  intros HKin HT (r0 & C0 & Hr0 & HC0 & HV) HF HU Hturn Hm Hcont.
  destruct (bounded4 X T (Rlt_le _ _ HT)) as (MX & PX & HX). { intros i Hi t Ht. apply (Hcont t i Ht Hi). }
  destruct (bounded4 W T (Rlt_le _ _ HT)) as (MW & PW & HW). { intros i Hi t Ht. apply (Hcont t i Ht Hi). }
  set (M := MX + MW + Rabs al + 2 * PI). assert (PP := PI_RGT_0). assert (PA := Rabs_pos al).
  destruct (HU M) as (ru & Cu & Hru & HCu & HB).
  destruct (HF C0 (-1)%Z HC0) as (Ca & ra & HCa & Hra & Ha). destruct (HF C0 0%Z HC0) as (Cb & rb & HCb & Hrb & Hb). destruct (HF C0 1%Z HC0) as (Cc & rc & HCc & Hrc & Hc).
  set (C := Ca + Cb + Cc). set (D := C + Kin + 1). assert (PD : 0 < D) by (unfold D, C; lra).
  set (r := Rmin (Rmin (Rmin ra rb) (Rmin rc 1)) (Rmin (r0 / 2) (ru / (4 * D)))).
  assert (L1 : r <= ra /\ r <= rb /\ r <= rc /\ r <= 1 /\ r <= r0 / 2 /\ r <= ru / (4 * D)).
  { unfold r. assert (Q1 := Rmin_l (Rmin (Rmin ra rb) (Rmin rc 1)) (Rmin (r0 / 2) (ru / (4 * D)))). assert (Q2 := Rmin_r (Rmin (Rmin ra rb) (Rmin rc 1)) (Rmin (r0 / 2) (ru / (4 * D)))).
    assert (Q3 := Rmin_l (Rmin ra rb) (Rmin rc 1)). assert (Q4 := Rmin_r (Rmin ra rb) (Rmin rc 1)). assert (Q5 := Rmin_l ra rb). assert (Q6 := Rmin_r ra rb). assert (Q7 := Rmin_l rc 1). assert (Q8 := Rmin_r rc 1). assert (Q9 := Rmin_l (r0 / 2) (ru / (4 * D))). assert (Q10 := Rmin_r (r0 / 2) (ru / (4 * D))). lra. }
  assert (Pr : 0 < r) by (unfold r; repeat apply Rmin_pos; try lra; apply Rdiv_lt_0_compat; lra).
  clearbody r. destruct L1 as (La & Lb & Lc & L1 & L0 & Lu).
  exists (Cu * D), r. split; [apply Rmult_le_pos; lra|]. split; [exact Pr|].
  intros u B e fp fv fal Hu HB2 He Hp Hv Hal h N tb Hh HN Huh k Hk.
  assert (Qu0 : 0 <= u / h) by (apply Rmult_le_pos; [exact Hu|apply Rlt_le, Rinv_0_lt_compat; lra]).
  assert (Qu1 : u <= u / h). { replace u with (u / h * h) at 1 by (field; lra). nra. }
  assert (Qh : 0 <= h ^ 4 <= h). { split; [apply pow_le; lra|]. assert (h ^ 3 <= 1) by (rewrite <- (pow1 3); apply pow_incr; lra). assert (0 <= h ^ 3) by (apply pow_le; lra). replace (h ^ 4) with (h * h ^ 3) by ring. nra. }
  destruct (HV u B fp fv fal ltac:(lra) HB2 Hp Hv Hal) as (s & w & E & Qs & (B1 & B2 & B3)).
  assert (Z : 0 <= C0 * u) by (apply Rmult_le_pos; assumption).
  destruct (sph_turn _ _ _ Qs) as (z & Hz & (A0 & A1 & A2 & A3)).
  assert (N1 : near4 (C0 * u) s (turn z s')) by (intros i Hi; do 4 (destruct i as [|i]; [assumption|]); lia).
  assert (N2 : near4 (C0 * u) (lift3 w) (lift3 w')). { intros i Hi. destruct i as [|i]; [cbn; rewrite Rminus_eq_0, Rabs_R0; exact Z|]. do 3 (destruct i as [|i]; [assumption|]). lia. }
  assert (S1 : exists st, flowA e c (covE e) (fE e) s (lift3 w) tb h k = Ok st /\ near_motion (C * (h ^ 4 + u / h)) (INR k * h) (turn z (X (INR k * h))) (W (INR k * h)) st).
  { assert (G : forall c1, 0 <= c1 <= C -> (exists st, flowA e c (covE e) (fE e) s (lift3 w) tb h k = Ok st /\ near_motion (c1 * (h ^ 4 + u / h)) (INR k * h) (turn z (X (INR k * h))) (W (INR k * h)) st) ->
      exists st, flowA e c (covE e) (fE e) s (lift3 w) tb h k = Ok st /\ near_motion (C * (h ^ 4 + u / h)) (INR k * h) (turn z (X (INR k * h))) (W (INR k * h)) st).
    { intros c1 Hc1 (st & E1 & T1 & T2). exists st. split; [exact E1|]. assert (c1 * (h ^ 4 + u / h) <= C * (h ^ 4 + u / h)) by (apply Rmult_le_compat_r; lra). split; [lra|]. intros i Hi. destruct (T2 i Hi). split; lra. }
    destruct Hz as [-> |[-> | ->]]; [apply (G Ca)|apply (G Cb)|apply (G Cc)]; unfold C; try lra; [apply (Ha u e s (lift3 w) Hu He N1 N2 h N tb)|apply (Hb u e s (lift3 w) Hu He N1 N2 h N tb)|apply (Hc u e s (lift3 w) Hu He N1 N2 h N tb)]; try assumption; lra. }
  destruct S1 as (st & Est & _ & Hst).
  assert (Ht : 0 <= INR k * h <= T). { split; [apply Rmult_le_pos; [apply pos_INR|lra]|]. eapply Rle_trans; [|exact HN]. apply Rmult_le_compat_r; [lra|apply le_INR; exact Hk]. }
  set (t := INR k * h) in *. set (a := C * (h ^ 4 + u / h)) in *. assert (Pa : 0 <= a) by (unfold a, C; apply Rmult_le_pos; lra).
  set (d := a + Kin * u + u). assert (PKu : 0 <= Kin * u) by (apply Rmult_le_pos; lra).
  assert (Kuh : Kin * u <= Kin * (h ^ 4 + u / h)) by (apply Rmult_le_compat_l; lra).
  assert (Dd : d <= D * (h ^ 4 + u / h)) by (unfold d, a, D; rewrite !Rmult_plus_distr_r, Rmult_1_l; lra).
  assert (Dr : D * (h ^ 4 + u / h) < ru). { apply Rle_lt_trans with (D * (2 * r)); [apply Rmult_le_compat_l; lra|]. apply Rmult_le_compat_l with (r := D) in Lu; [|lra]. replace (D * (ru / (4 * D))) with (ru / 4) in Lu by (field; lra). lra. }
  destruct (HB d B (state_pos st) (vel3 (state_vel st)) fal (turn z (X t)) (vel3 (W t)) al) as (x & y & Ex & Q1 & Q2).
  - unfold d in *. lra.
  - apply (accurate_le u); [unfold d; lra|apply (acc_ar _ _ HB2)].
  - assert (G := fun i Hi => proj1 (Hst i Hi)). assert (Ld : a <= d) by (unfold d; lra).
    apply (close4_le a); [exact Ld|]. split; [apply (G 0%nat); lia|]. split; [apply (G 1%nat); lia|]. split; [apply (G 2%nat); lia|apply (G 3%nat); lia].
  - assert (G := fun i Hi => proj2 (Hst i Hi)). assert (Ld : a <= d) by (unfold d; lra).
    apply (close3_le a); [exact Ld|]. split; [apply (G 1%nat); lia|]. split; [apply (G 2%nat); lia|apply (G 3%nat); lia].
  - unfold close in *. unfold d. lra.
  - destruct (HX t Ht) as (X0 & X1 & X2 & X3). destruct (HW t Ht) as (_ & W1 & W2 & W3). unfold within_box, close4, close3, close in *. cbn [c0 c1 c2 c3 turn vel3 v1 v2 v3] in *. rewrite !Rminus_0_r in *.
    assert (Tz : Rabs (2 * IZR z * PI) <= 2 * PI). { destruct Hz as [-> |[-> | ->]]; apply Rabs_le; lra. }
    assert (Y3 : Rabs (c3 (X t) + 2 * IZR z * PI) <= M) by (eapply Rle_trans; [apply Rabs_triang|unfold M; lra]). unfold M in *. repeat split; lra.
  - cbn [turn c1]. apply Hm, Ht.
  - rewrite Hturn in Q1, Q2. exists x, y. split; [unfold cart_outA, cart_flowA; rewrite E; cbn [bindR fst snd]; rewrite Est; exact Ex|].
    assert (Le : Cu * d <= Cu * D * (h ^ 4 + u / h)) by (rewrite Rmult_assoc; apply Rmult_le_compat_l; lra). split; [eapply close4_le; [exact Le|exact Q1]|eapply close3_le; [exact Le|exact Q2]].
Qed.

(** ** turning by whole circles changes nothing but the azimuth *)
Lemma moves_turn f X W k t : (forall x w, f (turn k x) w = f x w) -> locally t (moves f X W) -> locally t (moves f (fun t => turn k (X t)) W).
Proof.
  intros Hf. apply filter_imp. intros s (acc & V & E & A). exists acc. split; [|split; [rewrite Hf; exact E|exact A]].
  intros i Hi. specialize (V i Hi). do 3 (destruct i as [|i]; [exact V|]). destruct i as [|i]; [|lia]. cbn [q4nth turn c3] in *.
  apply D_eq with (c3 (W s) + 0); [|ring]. apply @is_derive_plus; [exact V|apply @is_derive_const].
Qed.
Lemma turn_si k c s : si_position c (turn k s) = turn k (si_position c s).
Proof. reflexivity. Qed.
Lemma sch_f_turn c G o k x w : sch_f_vec c G o (turn k x) w = sch_f_vec c G o x w.
Proof. reflexivity. Qed.
Lemma kerr_f_turn c G Cc o k x w : kerr_f_vec c G Cc o (turn k x) w = kerr_f_vec c G Cc o x w.
Proof. reflexivity. Qed.
Lemma kn_f_turn c G Cc o k x w : kn_f_vec c G Cc o (turn k x) w = kn_f_vec c G Cc o x w.
Proof. reflexivity. Qed.
Lemma cart_sph_turn al k x w : cart_sph (turn k x) w al = cart_sph x w al.
Proof. unfold cart_sph, turn, sph_to_cart, sph_to_cart_vel; cbn [c0 c1 c2 c3]. rewrite turn_cos, turn_sin. reflexivity. Qed.
Lemma cart_bl_turn al k x w : cart_bl (turn k x) w al = cart_bl x w al.
Proof. unfold cart_bl, bl_vel, turn, bl_to_cart, bl_to_cart_vel; cbn [c0 c1 c2 c3]. rewrite turn_cos, turn_sin. reflexivity. Qed.
Lemma moves_continuous f X W T : (forall t, 0 <= t <= T -> locally t (moves f X W)) ->
  forall t i, 0 <= t <= T -> (i < 4)%nat -> continuous (fun t => q4nth (X t) i) t /\ continuous (fun t => q4nth (W t) i) t.
Proof. intros H t i Ht Hi. destruct (locally_singleton _ _ (H t Ht)) as (acc & V & _ & A). split; [exact (D_continuous _ _ _ (V i Hi))|exact (D_continuous _ _ _ (A i Hi))]. Qed.

Lemma sum_sq_pos r al th : sg_of al r th <> 0 -> 0 < r ^ 2 + al ^ 2.
Proof.
  intros H. destruct (Req_dec r 0) as [-> |N].
  - assert (al <> 0) by (intros ->; apply H; unfold sg_of; ring). assert (0 < al ^ 2) by (apply pow2_gt_0; assumption). lra.
  - assert (0 < r ^ 2) by (apply pow2_gt_0; assumption). generalize (pow2_ge_0 al). lra.
Qed.
Lemma compact_min (f : R -> R) T : 0 <= T -> (forall t, 0 <= t <= T -> continuous f t) -> (forall t, 0 <= t <= T -> 0 < f t) -> exists m, 0 < m /\ forall t, 0 <= t <= T -> m <= f t.
Proof.
  intros HT HC HP. destruct (continuity_ab_min f 0 T HT) as (x & Hx & Bx). { intros t Ht. apply continuity_pt_filterlim, HC, Ht. }
  exists (f x). split; [apply HP, Bx|exact Hx].
Qed.
Lemma kerr_moves_dom c G Cc o x w y : c <> 0 -> kerr_f_vec c G Cc o x w = Ok y -> sg_of (al_of c G o) (c1 x) (c2 x) <> 0.
Proof.
  intros Hc E. unfold kerr_f_vec in E. destruct (mo_sys o); try discriminate. destruct (kerr_christoffels c G Cc o x) as [ch|] eqn:Q; [|discriminate].
  destruct (proj1 (kerr_christoffels_defined c G Cc o x Hc) (ex_intro _ ch Q)) as ((_ & _ & H & _) & _). exact H.
Qed.
Lemma kn_moves_dom c G Cc o x w y : c <> 0 -> kn_f_vec c G Cc o x w = Ok y -> sg_of (al_of c G o) (c1 x) (c2 x) <> 0.
Proof.
  intros Hc E. unfold kn_f_vec in E. destruct (mo_sys o); try discriminate. destruct (kn_christoffels c G Cc o x) as [ch|] eqn:Q; [|discriminate].
  destruct (proj1 (kn_christoffels_defined c G Cc o x Hc) (ex_intro _ ch Q)) as ((_ & _ & H & _) & _). exact H.
Qed.
Lemma lift_vel w v : vel3 (four_vel w (lift3 v)) = v.
Proof. destruct v. reflexivity. Qed.

Theorem sch_out K Kin c G o p v al w' g : 0 <= K -> 0 <= Kin -> 0 < c -> 0 < G -> off_z_axis p ->
  let s := cart_to_sph (c0 p) (c1 p) (c2 p) (c3 p) in cart_to_sph_vel (c1 p) (c2 p) (c3 p) (v1 v) (v2 v) (v3 v) = Ok w' ->
  MetricModel.sch_cov c G o (si_position c s) = Ok g -> 0 < mnth g 0 0 -> norm2 g (four_vel 0 (lift3 w')) < c ^ 2 ->
  exists w, timelike_lift c g (lift3 w') w /\
  (exists T X W, 0 < T /\ X 0 = si_position c s /\ W 0 = four_vel w (lift3 w') /\ forall t, 0 <= t <= T -> locally t (moves (sch_f_vec c G o) X W)) /\
  forall T X W, 0 < T -> X 0 = si_position c s -> W 0 = four_vel w (lift3 w') -> (forall t, 0 <= t <= T -> locally t (moves (sch_f_vec c G o) X W)) ->
  let Y := fun t => sph_to_cart (c0 (X t)) (c1 (X t)) (c2 (X t)) (c3 (X t)) in
  exists V, cart_curve Y V T /\ Y 0 = mkQ4 (c * c0 p) (c1 p) (c2 p) (c3 p) /\ V 0 = v /\
  out_rounded K Kin c to_sph from_sph (fun e => sch_covA e c G o) (fun e => sch_fA e c G o) p v al Y V T.
Proof.
  intros HK HKin Hc HG Hz s Ew Eg H0 Hn. assert (Hs : sin (c2 s) <> 0) by (apply sph_off_axis; exact Hz).
  destruct (sch_flow K Kin c G o s (lift3 w') g HK HKin Hc HG Eg H0 Hs Hn) as (w & TL & EX & _).
  exists w. split; [exact TL|]. split; [exact EX|]. intros T X W HT X0 W0 M Y.
  exists (fun t => snd (cart_sph (X t) (vel3 (W t)) al)). split; [|split; [|split]].
  - intros t Ht. destruct (locally_singleton _ _ (M t Ht)) as (acc & D & _ & _).
    exact (sph_cart_velocity (fun s => c1 (X s)) (fun s => c2 (X s)) (fun s => c3 (X s)) t _ _ _ (D 1%nat ltac:(lia)) (D 2%nat ltac:(lia)) (D 3%nat ltac:(lia))).
  - destruct (cart_sph_cart (c0 p) (c1 p) (c2 p) (c3 p)) as (Q & _). fold s in Q. unfold Y. rewrite X0. unfold si_position; cbn [c0 c1 c2 c3]. unfold sph_to_cart in *. assert (Q1 := f_equal c1 Q). assert (Q2 := f_equal c2 Q). assert (Q3 := f_equal c3 Q). cbn [c1 c2 c3] in Q1, Q2, Q3. rewrite Q1, Q2, Q3. reflexivity.
  - destruct (vel_cart_sph_cart (c0 p) (c1 p) (c2 p) (c3 p) (v1 v) (v2 v) (v3 v) Hz) as (w2 & E2 & Q). rewrite Ew in E2. apply Ok_inj in E2. subst w2. fold s in Q.
    rewrite W0, lift_vel, X0. unfold cart_sph, si_position; cbn [c0 c1 c2 c3 snd]. rewrite Q. destruct v; reflexivity.
  - destruct (cart_to_sph_rounded Kin p v al HKin Hz) as (w2 & E2 & EV). rewrite Ew in E2. apply Ok_inj in E2. subst w2.
    refine (out_gen K Kin c to_sph from_sph cart_sph _ _ p v al s w' X W T 0 HKin HT _ _ (fun M' => sph_uniform M' 0) (cart_sph_turn al) _ (moves_continuous _ X W T M)).
    + revert EV. apply ev_imp. intros C u B fp fv fal (q & x & _ & A1 & A2 & _ & A3). exists q, x. split; [exact A1|]. split; [exact A2|exact A3].
    + intros Kin' k HK'. destruct (sch_flow K Kin' c G o (turn k s) (lift3 w') g HK HK' Hc HG Eg H0 Hs Hn) as (w3 & (E3 & _) & _ & F).
      assert (w3 = w) as -> by (destruct TL as (T1 & _); rewrite T1 in E3; apply Ok_inj in E3; symmetry; exact E3). apply F; try assumption.
      * rewrite X0. reflexivity.
      * intros t Ht. apply moves_turn; [intros; apply sch_f_turn|apply M; exact Ht].
    + intros t _. generalize (pow2_ge_0 (c1 (X t))) (pow2_ge_0 al). lra.
Qed.

Section BLo.
Variables (K Kin c G Cc : R) (o : mobj) (p : V4) (v : V3) (al : R) (s : V4) (w' : V3) (g : M4).
Hypothesis HK : 0 <= K. Hypothesis HKin : 0 <= Kin. Hypothesis Hc : 0 < c.
Hypothesis Hx : c1 p <> 0. Hypothesis Hal : al = al_of c G o. Hypothesis Hr : 0 < bl_r (c1 p) (c2 p) (c3 p) al.
Hypothesis Es : cart_to_bl (c0 p) (c1 p) (c2 p) (c3 p) al = Ok s.
Hypothesis Ew : cart_to_bl_vel (c1 p) (c2 p) (c3 p) al (v1 v) (v2 v) (v3 v) = Ok w'.
Let ev : eventually_rounded Kin p v al (fun C u B fp fv fal => exists q x, to_bl B fp fv fal = Ok (q, x) /\ close_sph (C * u) q s /\ close3 (C * u) x w').
Proof.
  destruct (cart_to_bl_vel_rounded Kin p v al HKin Hx Hr) as (s2 & w2 & E1 & E2 & EV). rewrite Es in E1. apply Ok_inj in E1. subst s2. rewrite Ew in E2. apply Ok_inj in E2. subst w2.
  revert EV. apply ev_imp. intros C u B fp fv fal (q & x & A1 & A2 & _ & A3). exists q, x. split; [exact A1|]. split; [exact A2|exact A3].
Qed.
Let Hs : sin (c2 s) <> 0 := bl_off_axis p al s (or_introl Hx) Hr Es.
Lemma bl_out_gen f covE fE T X W w : 0 < T -> X 0 = si_position c s -> W 0 = four_vel w (lift3 w') -> (forall t, 0 <= t <= T -> locally t (moves f X W)) ->
  (forall x w y, f x w = Ok y -> sg_of (al_of c G o) (c1 x) (c2 x) <> 0) ->
  (forall Kin' k, 0 <= Kin' -> flow_rounded K Kin' c covE fE (turn k s) (lift3 w') (fun t => turn k (X t)) W T) ->
  let Y := fun t => bl_to_cart (c0 (X t)) (c1 (X t)) (c2 (X t)) (c3 (X t)) al in
  exists V, cart_curve Y V T /\ Y 0 = mkQ4 (c * c0 p) (c1 p) (c2 p) (c3 p) /\ V 0 = v /\ out_rounded K Kin c to_bl from_bl covE fE p v al Y V T.
Proof.
  intros HT X0 W0 M DOM HF Y.
  assert (Pos : forall t, 0 <= t <= T -> 0 < c1 (X t) ^ 2 + al ^ 2).
  { intros t Ht. destruct (locally_singleton _ _ (M t Ht)) as (acc & _ & E & _). rewrite Hal. exact (sum_sq_pos _ _ _ (DOM _ _ _ E)). }
  exists (fun t => snd (cart_bl (X t) (vel3 (W t)) al)). split; [|split; [|split]].
  - intros t Ht. destruct (locally_singleton _ _ (M t Ht)) as (acc & D & _ & _).
    destruct (bl_cart_velocity (fun s => c1 (X s)) (fun s => c2 (X s)) (fun s => c3 (X s)) al t _ _ _ (D 1%nat ltac:(lia)) (D 2%nat ltac:(lia)) (D 3%nat ltac:(lia))) as (q & Eq & Q).
    { destruct (Req_dec al 0) as [Z|N]; [left|right; exact N]. intros Z1. specialize (Pos t Ht). cbv beta in Z1. rewrite Z, Z1 in Pos. lra. }
    assert (snd (cart_bl (X t) (vel3 (W t)) al) = q) as ->; [|exact Q]. unfold cart_bl, bl_vel; cbn [snd vel3 v1 v2 v3]. cbn [q4nth] in Eq. rewrite Eq. reflexivity.
  - destruct (cart_bl_cart (c0 p) (c1 p) (c2 p) (c3 p) al Hr) as (s2 & E2 & Q & _). rewrite Es in E2. apply Ok_inj in E2. subst s2. unfold Y. rewrite X0. unfold si_position; cbn [c0 c1 c2 c3]. unfold bl_to_cart in *. assert (Q0 := f_equal c0 Q). assert (Q1 := f_equal c1 Q). assert (Q2 := f_equal c2 Q). assert (Q3 := f_equal c3 Q). cbn [c0 c1 c2 c3] in Q0, Q1, Q2, Q3. rewrite Q0, Q1, Q2, Q3. reflexivity.
  - destruct (vel_cart_bl_cart (c0 p) (c1 p) (c2 p) (c3 p) al (v1 v) (v2 v) (v3 v) Hx Hr) as (s2 & w2 & E1 & E2 & Q). rewrite Es in E1. apply Ok_inj in E1. subst s2. rewrite Ew in E2. apply Ok_inj in E2. subst w2.
    rewrite W0, lift_vel, X0. unfold cart_bl, bl_vel, si_position; cbn [c0 c1 c2 c3 snd]. rewrite Q. destruct v; reflexivity.
  - assert (Cont := moves_continuous _ X W T M).
    destruct (compact_min (fun t => c1 (X t) ^ 2 + al ^ 2) T (Rlt_le _ _ HT)) as (m & Pm & Hm); [|exact Pos|].
    { intros t Ht. destruct (locally_singleton _ _ (M t Ht)) as (acc & D & _ & _). assert (D1 := D 1%nat ltac:(lia)). cbn [q4nth] in D1. eapply (D_continuous (fun t => c1 (X t) ^ 2 + al ^ 2)). apply @is_derive_plus; [|apply @is_derive_const]. apply is_derive_pow. exact D1. }
    exact (out_gen K Kin c to_bl from_bl cart_bl _ _ p v al s w' X W T m HKin HT ev HF (fun M' => bl_uniform M' m Pm) (cart_bl_turn al) Hm Cont).
Qed.
Theorem kerr_out : kerr_cov c G Cc o (si_position c s) = Ok g -> 0 < mnth g 0 0 -> norm2 g (four_vel 0 (lift3 w')) < c ^ 2 ->
  exists w, timelike_lift c g (lift3 w') w /\
  (exists T X W, 0 < T /\ X 0 = si_position c s /\ W 0 = four_vel w (lift3 w') /\ forall t, 0 <= t <= T -> locally t (moves (kerr_f_vec c G Cc o) X W)) /\
  forall T X W, 0 < T -> X 0 = si_position c s -> W 0 = four_vel w (lift3 w') -> (forall t, 0 <= t <= T -> locally t (moves (kerr_f_vec c G Cc o) X W)) ->
  let Y := fun t => bl_to_cart (c0 (X t)) (c1 (X t)) (c2 (X t)) (c3 (X t)) al in
  exists V, cart_curve Y V T /\ Y 0 = mkQ4 (c * c0 p) (c1 p) (c2 p) (c3 p) /\ V 0 = v /\
  out_rounded K Kin c to_bl from_bl (fun e => kerr_covA e c G Cc o) (fun e => kerr_fA e c G Cc o) p v al Y V T.
Proof.
  intros Eg H0 Hn. destruct (kerr_flow K Kin c G Cc o s (lift3 w') g HK HKin Hc Eg H0 Hs Hn) as (w & TL & EX & _).
  exists w. split; [exact TL|]. split; [exact EX|]. intros T X W HT X0 W0 M. refine (bl_out_gen _ _ _ T X W w HT X0 W0 M _ _).
  - intros x u y. apply kerr_moves_dom. lra.
  - intros Kin' k HK'. destruct (kerr_flow K Kin' c G Cc o (turn k s) (lift3 w') g HK HK' Hc Eg H0 Hs Hn) as (w3 & (E3 & _) & _ & F).
    assert (w3 = w) as -> by (destruct TL as (T1 & _); rewrite T1 in E3; apply Ok_inj in E3; symmetry; exact E3). apply F; try assumption.
    + rewrite X0. reflexivity.
    + intros t Ht. apply moves_turn; [intros; apply kerr_f_turn|apply M; exact Ht].
Qed.
Theorem kn_out : 0 < G -> 0 < Cc -> MetricModel.kn_cov c G Cc o (si_position c s) = Ok g -> 0 < mnth g 0 0 -> norm2 g (four_vel 0 (lift3 w')) < c ^ 2 ->
  exists w, timelike_lift c g (lift3 w') w /\
  (exists T X W, 0 < T /\ X 0 = si_position c s /\ W 0 = four_vel w (lift3 w') /\ forall t, 0 <= t <= T -> locally t (moves (kn_f_vec c G Cc o) X W)) /\
  forall T X W, 0 < T -> X 0 = si_position c s -> W 0 = four_vel w (lift3 w') -> (forall t, 0 <= t <= T -> locally t (moves (kn_f_vec c G Cc o) X W)) ->
  let Y := fun t => bl_to_cart (c0 (X t)) (c1 (X t)) (c2 (X t)) (c3 (X t)) al in
  exists V, cart_curve Y V T /\ Y 0 = mkQ4 (c * c0 p) (c1 p) (c2 p) (c3 p) /\ V 0 = v /\
  out_rounded K Kin c to_bl from_bl (fun e => kn_covA e c G Cc o) (fun e => kn_fA e c G Cc o) p v al Y V T.
Proof.
  intros HG HC Eg H0 Hn. destruct (kn_flow K Kin c G Cc o s (lift3 w') g HK HKin Hc HG HC Eg H0 Hs Hn) as (w & TL & EX & _).
  exists w. split; [exact TL|]. split; [exact EX|]. intros T X W HT X0 W0 M. refine (bl_out_gen _ _ _ T X W w HT X0 W0 M _ _).
  - intros x u y. apply kn_moves_dom. lra.
  - intros Kin' k HK'. destruct (kn_flow K Kin' c G Cc o (turn k s) (lift3 w') g HK HK' Hc HG HC Eg H0 Hs Hn) as (w3 & (E3 & _) & _ & F).
    assert (w3 = w) as -> by (destruct TL as (T1 & _); rewrite T1 in E3; apply Ok_inj in E3; symmetry; exact E3). apply F; try assumption.
    + rewrite X0. reflexivity.
    + intros t Ht. apply moves_turn; [intros; apply kn_f_turn|apply M; exact Ht].
Qed.
End BLo.
