(** C121: from Cartesian SI coordinates to the trajectory in floating point: conversion (coordinates/conversion.py, coordinates/utils.py), position() and velocity(metric), then RK4naive.step on metric.f_vec. *)
From Coq Require Import String Reals List ZArith Lra Lia Bool.
From Coquelicot Require Import Coquelicot.
From Verif Require Import Base Calc DualModel GeoUtilsModel CoordModel CoordProofs CoordProofs2 CoordProofs3 CoordProofs4 ConvModel ConvProofs2 MetricModel MetricSpec MetricProofs MetricProofs2 MetricProofs3 MetricHamilton2 FloatModel FloatTrack FloatRK FloatRKG FloatCoordModel FloatCoord FloatCoordMain FloatMetricModel FloatMetric FloatMetric6.
From Verif Require Import FloatVel FloatFlow.
Import ListNotations.
Open Scope R_scope.

(** a 3-velocity as the argument of four_vel; the time component is not used *)
Definition lift3 (w : V3) : V4 := mkQ4 0 (v1 w) (v2 w) (v3 w).
(** differential.py:153-178 (spherical_differential), 179-215 (bl_differential): p, v the SI values of the Cartesian position (t, x, y, z) and velocity, al = BaseMetric.alpha(M, a) for Boyer-Lindquist;
    then flowA *)
Definition cart_flowA (B : arith2) (e : fenv) (conv : arith2 -> V4 -> V3 -> R -> Res (V4 * V3)) (c : R) (cov : V4 -> Res M4) (f : R -> list R -> Res (list R)) (p : V4) (v : V3) (al tb h : R) (k : nat) : Res rk4f :=
  let* sw := conv B p v al in flowA e c cov f (fst sw) (lift3 (snd sw)) tb h k.
(** for every small roundoff, float inputs within Kin u, step and step count *)
Definition cart_rounded (K Kin c : R) (conv : arith2 -> V4 -> V3 -> R -> Res (V4 * V3)) (covE : fenv -> V4 -> Res M4) (fE : fenv -> R -> list R -> Res (list R)) (p : V4) (v : V3) (al : R) (X W : R -> V4) (T : R) : Prop :=
  exists C r, 0 <= C /\ 0 < r /\ forall u B e fp fv fal, 0 <= u -> accurate2 u B -> good K u e -> close4 (Kin * u) fp p -> close3 (Kin * u) fv v -> close (Kin * u) fal al ->
  forall h N tb, 0 < h <= r -> INR N * h <= T -> u / h <= r -> forall k, (k <= N)%nat ->
  exists s, cart_flowA B e conv c (covE e) (fE e) fp fv fal tb h k = Ok s /\ near_motion (C * (h ^ 4 + u / h)) (INR k * h) (X (INR k * h)) (W (INR k * h)) s.

Lemma cart_gen K Kin c conv covE fE p v al s' w' X W T :
  eventually_rounded Kin p v al (fun C u B fp fv fal => exists s w, conv B fp fv fal = Ok (s, w) /\ close4 (C * u) s s' /\ close3 (C * u) w w') ->
  (forall Kin', 0 <= Kin' -> flow_rounded K Kin' c covE fE s' (lift3 w') X W T) -> cart_rounded K Kin c conv covE fE p v al X W T.
Proof.
  intros (r0 & C0 & Hr0 & HC0 & HV) HF. destruct (HF C0 HC0) as (C & r & HC & Hr & H).
  exists C, (Rmin r (Rmin 1 (r0 / 2))). split; [exact HC|]. split; [repeat apply Rmin_pos; lra|].
  assert (M1 := Rmin_l r (Rmin 1 (r0 / 2))). assert (M2 := Rmin_r r (Rmin 1 (r0 / 2))). assert (M3 := Rmin_l 1 (r0 / 2)). assert (M4 := Rmin_r 1 (r0 / 2)).
  intros u B e fp fv fal Hu HB He Hp Hv Ha h N tb Hh HN Huh k Hk.
  assert (Qu0 : 0 <= u / h) by (apply Rmult_le_pos; [exact Hu|apply Rlt_le, Rinv_0_lt_compat; lra]).
  assert (Qu : u = u / h * h) by (field; lra).
  assert (Qu1 : u <= u / h) by (rewrite Qu at 1; nra).
  destruct (HV u B fp fv fal ltac:(lra) HB Hp Hv Ha) as (s & w & E & (A0 & A1 & A2 & A3) & (B1 & B2 & B3)).
  assert (Z : 0 <= C0 * u) by (apply Rmult_le_pos; assumption).
  assert (N1 : near4 (C0 * u) s s') by (intros i Hi; do 4 (destruct i as [|i]; [assumption|]); lia).
  assert (N2 : near4 (C0 * u) (lift3 w) (lift3 w')). { intros i Hi. destruct i as [|i]; [cbn; rewrite Rminus_eq_0, Rabs_R0; exact Z|]. do 3 (destruct i as [|i]; [assumption|]). lia. }
  destruct (H u e s (lift3 w) Hu He N1 N2 h N tb ltac:(lra) HN ltac:(lra) k Hk) as (st & Es & Bs). exists st. split; [|exact Bs].
  unfold cart_flowA. rewrite E. cbn [bindR fst snd]. exact Es.
Qed.

Lemma sph_off_axis p : off_z_axis p -> sin (c2 (cart_to_sph (c0 p) (c1 p) (c2 p) (c3 p))) <> 0.
Proof.
  intros H E. destruct (cart_sph_cart (c0 p) (c1 p) (c2 p) (c3 p)) as (Q & _). set (s := cart_to_sph _ _ _ _) in *. unfold sph_to_cart in Q. rewrite E in Q.
  assert (Q1 := f_equal c1 Q). assert (Q2 := f_equal c2 Q). cbn [c1 c2] in Q1, Q2. destruct H as [H|H]; apply H; [rewrite <- Q1|rewrite <- Q2]; ring.
Qed.

Theorem sch_cart K Kin c G o p v al w' g : 0 <= K -> 0 <= Kin -> 0 < c -> 0 < G -> off_z_axis p -> off_cut p ->
  let s := cart_to_sph (c0 p) (c1 p) (c2 p) (c3 p) in cart_to_sph_vel (c1 p) (c2 p) (c3 p) (v1 v) (v2 v) (v3 v) = Ok w' ->
  MetricModel.sch_cov c G o (si_position c s) = Ok g -> 0 < mnth g 0 0 -> norm2 g (four_vel 0 (lift3 w')) < c ^ 2 ->
  exists w, timelike_lift c g (lift3 w') w /\
  (exists T X W, 0 < T /\ X 0 = si_position c s /\ W 0 = four_vel w (lift3 w') /\ forall t, 0 <= t <= T -> locally t (moves (sch_f_vec c G o) X W)) /\
  forall T X W, 0 < T -> X 0 = si_position c s -> W 0 = four_vel w (lift3 w') -> (forall t, 0 <= t <= T -> locally t (moves (sch_f_vec c G o) X W)) ->
  cart_rounded K Kin c to_sph (fun e => sch_covA e c G o) (fun e => sch_fA e c G o) p v al X W T.
Proof.
  intros HK HKin Hc HG Hz Hcut s Ew Eg H0 Hn. assert (Hs : sin (c2 s) <> 0) by (apply sph_off_axis; exact Hz).
  destruct (sch_flow K Kin c G o s (lift3 w') g HK HKin Hc HG Eg H0 Hs Hn) as (w & TL & EX & _).
  exists w. split; [exact TL|]. split; [exact EX|]. intros T X W HT X0 W0 M.
  destruct (cart_to_sph_rounded Kin p v al HKin Hz) as (w2 & E2 & EV). rewrite Ew in E2. apply Ok_inj in E2. subst w2.
  apply (cart_gen K Kin c to_sph _ _ p v al s w' X W T).
  - revert EV. apply ev_imp. intros C u B fp fv fal (q & x & _ & A1 & _ & A2 & A3). exists q, x. split; [exact A1|]. split; [apply A2; exact Hcut|exact A3].
  - intros Kin' HK'. destruct (sch_flow K Kin' c G o s (lift3 w') g HK HK' Hc HG Eg H0 Hs Hn) as (w3 & (E3 & _) & _ & F).
    assert (w3 = w) as -> by (destruct TL as (T1 & _); rewrite T1 in E3; apply Ok_inj in E3; symmetry; exact E3). apply F; assumption.
Qed.

Lemma bl_off_axis p al s : off_z_axis p -> 0 < bl_r (c1 p) (c2 p) (c3 p) al -> cart_to_bl (c0 p) (c1 p) (c2 p) (c3 p) al = Ok s -> sin (c2 s) <> 0.
Proof.
  intros H Hr Es E. destruct (cart_bl_cart (c0 p) (c1 p) (c2 p) (c3 p) al Hr) as (s2 & E2 & Q & _). rewrite Es in E2. apply Ok_inj in E2. subst s2. unfold bl_to_cart in Q. rewrite E in Q.
  assert (Q1 := f_equal c1 Q). assert (Q2 := f_equal c2 Q). cbn [c1 c2] in Q1, Q2. destruct H as [H|H]; apply H; [rewrite <- Q1|rewrite <- Q2]; ring.
Qed.

Section BLc.
Variables (K Kin c G Cc : R) (o : mobj) (p : V4) (v : V3) (al : R) (s : V4) (w' : V3) (g : M4).
Hypothesis HK : 0 <= K. Hypothesis HKin : 0 <= Kin. Hypothesis Hc : 0 < c.
Hypothesis Hx : c1 p <> 0. Hypothesis Hcut : off_cut p. Hypothesis Hr : 0 < bl_r (c1 p) (c2 p) (c3 p) al.
Hypothesis Es : cart_to_bl (c0 p) (c1 p) (c2 p) (c3 p) al = Ok s.
Hypothesis Ew : cart_to_bl_vel (c1 p) (c2 p) (c3 p) al (v1 v) (v2 v) (v3 v) = Ok w'.
Let ev : eventually_rounded Kin p v al (fun C u B fp fv fal => exists q x, to_bl B fp fv fal = Ok (q, x) /\ close4 (C * u) q s /\ close3 (C * u) x w').
Proof.
  destruct (cart_to_bl_vel_rounded Kin p v al HKin Hx Hr) as (s2 & w2 & E1 & E2 & EV). rewrite Es in E1. apply Ok_inj in E1. subst s2. rewrite Ew in E2. apply Ok_inj in E2. subst w2.
  revert EV. apply ev_imp. intros C u B fp fv fal (q & x & A1 & _ & A2 & A3). exists q, x. split; [exact A1|]. split; [apply A2; exact Hcut|exact A3].
Qed.
Let Hs : sin (c2 s) <> 0 := bl_off_axis p al s (or_introl Hx) Hr Es.
Theorem kerr_cart : kerr_cov c G Cc o (si_position c s) = Ok g -> 0 < mnth g 0 0 -> norm2 g (four_vel 0 (lift3 w')) < c ^ 2 ->
  exists w, timelike_lift c g (lift3 w') w /\
  (exists T X W, 0 < T /\ X 0 = si_position c s /\ W 0 = four_vel w (lift3 w') /\ forall t, 0 <= t <= T -> locally t (moves (kerr_f_vec c G Cc o) X W)) /\
  forall T X W, 0 < T -> X 0 = si_position c s -> W 0 = four_vel w (lift3 w') -> (forall t, 0 <= t <= T -> locally t (moves (kerr_f_vec c G Cc o) X W)) ->
  cart_rounded K Kin c to_bl (fun e => kerr_covA e c G Cc o) (fun e => kerr_fA e c G Cc o) p v al X W T.
Proof.
  intros Eg H0 Hn. destruct (kerr_flow K Kin c G Cc o s (lift3 w') g HK HKin Hc Eg H0 Hs Hn) as (w & TL & EX & _).
  exists w. split; [exact TL|]. split; [exact EX|]. intros T X W HT X0 W0 M. apply (cart_gen K Kin c to_bl _ _ p v al s w' X W T ev).
  intros Kin' HK'. destruct (kerr_flow K Kin' c G Cc o s (lift3 w') g HK HK' Hc Eg H0 Hs Hn) as (w3 & (E3 & _) & _ & F).
  assert (w3 = w) as -> by (destruct TL as (T1 & _); rewrite T1 in E3; apply Ok_inj in E3; symmetry; exact E3). apply F; assumption.
Qed.
Theorem kn_cart : 0 < G -> 0 < Cc -> MetricModel.kn_cov c G Cc o (si_position c s) = Ok g -> 0 < mnth g 0 0 -> norm2 g (four_vel 0 (lift3 w')) < c ^ 2 ->
  exists w, timelike_lift c g (lift3 w') w /\
  (exists T X W, 0 < T /\ X 0 = si_position c s /\ W 0 = four_vel w (lift3 w') /\ forall t, 0 <= t <= T -> locally t (moves (kn_f_vec c G Cc o) X W)) /\
  forall T X W, 0 < T -> X 0 = si_position c s -> W 0 = four_vel w (lift3 w') -> (forall t, 0 <= t <= T -> locally t (moves (kn_f_vec c G Cc o) X W)) ->
  cart_rounded K Kin c to_bl (fun e => kn_covA e c G Cc o) (fun e => kn_fA e c G Cc o) p v al X W T.
Proof.
  intros HG HC Eg H0 Hn. destruct (kn_flow K Kin c G Cc o s (lift3 w') g HK HKin Hc HG HC Eg H0 Hs Hn) as (w & TL & EX & _).
  exists w. split; [exact TL|]. split; [exact EX|]. intros T X W HT X0 W0 M. apply (cart_gen K Kin c to_bl _ _ p v al s w' X W T ev).
  intros Kin' HK'. destruct (kn_flow K Kin' c G Cc o s (lift3 w') g HK HK' Hc HG HC Eg H0 Hs Hn) as (w3 & (E3 & _) & _ & F).
  assert (w3 = w) as -> by (destruct TL as (T1 & _); rewrite T1 in E3; apply Ok_inj in E3; symmetry; exact E3). apply F; assumption.
Qed.
End BLc.
