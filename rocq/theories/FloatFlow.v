(** C119: from SI coordinates to the trajectory in floating point: position(), velocity(metric) (coordinates/differential.py), then RK4naive.step (integrators/runge_kutta.py) on metric.f_vec. *)
From Coq Require Import String Reals List ZArith Lra Lia Bool.
From Coquelicot Require Import Coquelicot.
From Verif Require Import Base Calc DualModel GeoUtilsModel CoordModel ConvModel ConvProofs2 MetricModel MetricSpec MetricProofs MetricProofs2 MetricProofs3 MetricProofs6 MetricProofs7 MetricProofs8 MetricHamilton2 MetricUnify PicardProg FloatModel FloatTrack FloatRK FloatRKG FloatMetricModel FloatMetric FloatMetric2 FloatMetric3 FloatMetric4 FloatMetric5 FloatMetric6 FloatMetric7 FloatMetric8.
From Verif Require Import FloatVel.
Import ListNotations.
Open Scope R_scope.

(** metric/base_metric.py documents the affine parameter starting at 0; integrators/runge_kutta.py:7-55 *)
Definition flowA (e : fenv) (c : R) (cov : V4 -> Res M4) (f : R -> list R -> Res (list R)) (x v : V4) (tb h : R) (k : nat) : Res rk4f :=
  let* pv := four_velA e c cov x v in rk4_stepsF (fe_A e) 8 f k (rk4_initA 0 (vec8 (fst pv) (snd pv)) tb h).

Definition near_motion (d : R) (t : R) (p q : V4) (s : rk4f) : Prop :=
  Rabs (rf_t s - t) <= d /\ forall i, (i < 4)%nat -> Rabs (nth i (rf_y s) 0 - q4nth p i) <= d /\ Rabs (nth (4 + i) (rf_y s) 0 - q4nth q i) <= d.
(** the 4-velocity with the given spatial part: real, future directed, of norm c^2 *)
Definition timelike_lift (c : R) (g : M4) (v : V4) (w : R) : Prop := v0 c g (c1 v) (c2 v) (c3 v) = Ok w /\ 0 < w /\ norm2 g (four_vel w v) = c ^ 2.
(** every motion X, W from the position and 4-velocity, along every run of the program *)
Definition flow_rounded (K Kin c : R) (covE : fenv -> V4 -> Res M4) (fE : fenv -> R -> list R -> Res (list R)) (x v : V4) (X W : R -> V4) (T : R) : Prop :=
  exists C r, 0 <= C /\ 0 < r /\ forall u e x' v', 0 <= u -> good K u e -> near4 (Kin * u) x' x -> near4 (Kin * u) v' v ->
  forall h N tb, 0 < h <= r -> INR N * h <= T -> u / h <= r -> forall k, (k <= N)%nat ->
  exists s, flowA e c (covE e) (fE e) x' v' tb h k = Ok s /\ near_motion (C * (h ^ 4 + u / h)) (INR k * h) (X (INR k * h)) (W (INR k * h)) s.

Lemma flow_gen K Kin c covE cov fE (f : V4 -> V4 -> Res (V4 * V4)) x v g :
  cov_follows K covE cov ->
  (forall X W t0 T, T <> 0 -> (forall t, Rmin t0 (t0 + T) <= t <= Rmax t0 (t0 + T) -> locally t (moves f X W)) ->
    exists C r, 0 <= C /\ 0 < r /\ forall u e, 0 <= u -> good K u e -> forall h N e0 t0' x0 v0 tb, 0 < h * T -> Rabs h <= r -> INR N * Rabs h <= Rabs T ->
    Rabs (t0' - t0) <= e0 -> near4 e0 x0 (X t0) -> near4 e0 v0 (W t0) -> e0 + u / Rabs h <= r ->
    forall k, (k <= N)%nat -> exists s, rk4_stepsF (fe_A e) 8 (fE e) k (rk4_initA t0' (vec8 x0 v0) tb h) = Ok s /\
      Rabs (rf_t s - (t0 + INR k * h)) <= C * (e0 + Rabs h ^ 4 + u / Rabs h) /\
      forall i, (i < 4)%nat -> Rabs (nth i (rf_y s) 0 - q4nth (X (t0 + INR k * h)) i) <= C * (e0 + Rabs h ^ 4 + u / Rabs h) /\
        Rabs (nth (4 + i) (rf_y s) 0 - q4nth (W (t0 + INR k * h)) i) <= C * (e0 + Rabs h ^ 4 + u / Rabs h)) ->
  (forall w, exists z, f (si_position c x) (four_vel w v) = Ok z) ->
  (forall y w z, f y w = Ok z -> exists T X W, 0 < T /\ X 0 = y /\ W 0 = w /\ forall t, Rabs t <= T -> locally t (moves f X W)) ->
  0 <= Kin -> cov (si_position c x) = Ok g -> symmetric4 g -> 0 < mnth g 0 0 -> norm2 g (four_vel 0 v) < c ^ 2 ->
  exists w, timelike_lift c g v w /\
  (exists T X W, 0 < T /\ X 0 = si_position c x /\ W 0 = four_vel w v /\ forall t, 0 <= t <= T -> locally t (moves f X W)) /\
  forall T X W, 0 < T -> X 0 = si_position c x -> W 0 = four_vel w v -> (forall t, 0 <= t <= T -> locally t (moves f X W)) -> flow_rounded K Kin c covE fE x v X W T.
Proof.
  intros Hf Hrk Hfv Hex HKin Eg Sg H0 Hn.
  destruct (velocity_rounded K c covE cov Hf Kin x v g HKin Eg Sg H0 Hn) as (w & E1 & E2 & E3 & C1 & r1 & HC1 & Hr1 & HV).
  exists w. split; [split; [exact E1|split; assumption]|]. split.
  { destruct (Hfv w) as [z Ez]. destruct (Hex _ _ z Ez) as (T & X & W & HT & X0 & W0 & M). exists T, X, W. split; [exact HT|]. split; [exact X0|]. split; [exact W0|]. intros t Ht. apply M. rewrite Rabs_right; lra. }
  intros T X W HT X0 W0 M.
  destruct (Hrk X W 0 T (Rgt_not_eq _ _ HT)) as (C2 & r2 & HC2 & Hr2 & HR).
  { intros t Ht. rewrite Rplus_0_l, Rmin_left, Rmax_right in Ht by lra. apply M. exact Ht. }
  assert (P1 : 0 < C1 + 1) by lra. assert (P2 : 0 < r2 / (C1 + 1)) by (apply Rdiv_lt_0_compat; lra).
  set (r := Rmin (Rmin 1 (r1 / 2)) (Rmin (r2 / (C1 + 1)) r2)).
  assert (Q1 : r <= 1) by (unfold r; eapply Rle_trans; [apply Rmin_l|apply Rmin_l]).
  assert (Q2 : r <= r1 / 2) by (unfold r; eapply Rle_trans; [apply Rmin_l|apply Rmin_r]).
  assert (Q3 : r <= r2 / (C1 + 1)) by (unfold r; eapply Rle_trans; [apply Rmin_r|apply Rmin_l]).
  assert (Q4' : r <= r2) by (unfold r; eapply Rle_trans; [apply Rmin_r|apply Rmin_r]).
  assert (Q5 : 0 < r) by (unfold r; repeat apply Rmin_glb_lt; lra).
  exists (C2 * (C1 + 1)), r. split; [apply Rmult_le_pos; lra|]. split; [exact Q5|].
  intros u e x' v' Hu He Hx Hv h N tb Hh HN Huh k Hk.
  assert (Qu0 : 0 <= u / h) by (apply Rmult_le_pos; [exact Hu|apply Rlt_le, Rinv_0_lt_compat; lra]).
  assert (Qu : u = u / h * h) by (field; lra).
  assert (Qu1 : u <= u / h) by (rewrite Qu at 1; nra).
  assert (Hur : u < r1) by lra.
  destruct (HV u e x' v' (conj Hu Hur) He Hx Hv) as (p & q & Ef & Np & Nq).
  rewrite <- X0 in Np. rewrite <- W0 in Nq.
  assert (QC : C1 * u <= C1 * (u / h)) by (apply Rmult_le_compat_l; assumption).
  assert (Qe : (C1 + 1) * r <= r2). { apply Rle_trans with ((C1 + 1) * (r2 / (C1 + 1))); [apply Rmult_le_compat_l; lra|right; field; lra]. }
  assert (Qs : C1 * u + u / h <= r2). { apply Rle_trans with ((C1 + 1) * (u / h)); [lra|]. apply Rle_trans with ((C1 + 1) * r); [apply Rmult_le_compat_l; lra|exact Qe]. }
  assert (Ha : Rabs h = h) by (apply Rabs_right; lra). assert (HaT : Rabs T = T) by (apply Rabs_right; lra).
  assert (G1 : Rabs (0 - 0) <= C1 * u) by (rewrite Rminus_eq_0, Rabs_R0; apply Rmult_le_pos; assumption).
  assert (G2 : 0 < h * T) by (apply Rmult_lt_0_compat; lra).
  specialize (HR u e Hu He h N (C1 * u) 0 p q tb G2). rewrite Ha, HaT in HR.
  destruct (HR ltac:(lra) HN G1 Np Nq Qs k Hk) as (s & Es & B1 & B2).
  exists s. split. { unfold flowA. rewrite Ef. cbn [bindR fst snd]. exact Es. }
  rewrite Rplus_0_l in B1, B2.
  assert (Hp4 : 0 <= h ^ 4) by (apply pow_le; lra).
  assert (Le : C2 * (C1 * u + h ^ 4 + u / h) <= C2 * (C1 + 1) * (h ^ 4 + u / h)).
  { rewrite Rmult_assoc. apply Rmult_le_compat_l; [exact HC2|]. assert (0 <= C1 * h ^ 4) by (apply Rmult_le_pos; assumption). lra. }
  split; [eapply Rle_trans; [exact B1|exact Le]|]. intros i Hi. destruct (B2 i Hi) as [L1 L2]. split; (eapply Rle_trans; [eassumption|exact Le]).
Qed.

(** ** the three classes *)
Lemma si_sym c G Cc o x g : MetricModel.sch_cov c G o x = Ok g \/ kerr_cov c G Cc o x = Ok g \/ MetricModel.kn_cov c G Cc o x = Ok g -> symmetric4 g.
Proof. exact (si_metrics_symmetric c G Cc o x g). Qed.
Theorem sch_velocity K Kin c G o x v g : 0 <= Kin -> 0 < c -> MetricModel.sch_cov c G o (si_position c x) = Ok g -> 0 < mnth g 0 0 -> norm2 g (four_vel 0 v) < c ^ 2 ->
  exists w, timelike_lift c g v w /\
  rounded8 K Kin x v (fun d e x' v' => exists p q, four_velA e c (sch_covA e c G o) x' v' = Ok (p, q) /\ near4 d p (si_position c x) /\ near4 d q (four_vel w v)).
Proof.
  intros HKin Hc Eg H0 Hn. assert (Hc' : c <> 0) by lra.
  destruct (velocity_rounded K c _ _ (sch_cov_follows K c G o Hc') Kin x v g HKin Eg (si_sym c G 1 o _ _ (or_introl Eg)) H0 Hn) as (w & E1 & E2 & E3 & R).
  exists w. split; [split; [exact E1|split; assumption]|exact R].
Qed.
Theorem kerr_velocity K Kin c G Cc o x v g : 0 <= Kin -> 0 < c -> kerr_cov c G Cc o (si_position c x) = Ok g -> 0 < mnth g 0 0 -> norm2 g (four_vel 0 v) < c ^ 2 ->
  exists w, timelike_lift c g v w /\
  rounded8 K Kin x v (fun d e x' v' => exists p q, four_velA e c (kerr_covA e c G Cc o) x' v' = Ok (p, q) /\ near4 d p (si_position c x) /\ near4 d q (four_vel w v)).
Proof.
  intros HKin Hc Eg H0 Hn. assert (Hc' : c <> 0) by lra.
  destruct (velocity_rounded K c _ _ (kerr_cov_follows K c G Cc o Hc') Kin x v g HKin Eg (si_sym c G Cc o _ _ (or_intror (or_introl Eg))) H0 Hn) as (w & E1 & E2 & E3 & R).
  exists w. split; [split; [exact E1|split; assumption]|exact R].
Qed.
Theorem kn_velocity K Kin c G Cc o x v g : 0 <= Kin -> 0 < c -> MetricModel.kn_cov c G Cc o (si_position c x) = Ok g -> 0 < mnth g 0 0 -> norm2 g (four_vel 0 v) < c ^ 2 ->
  exists w, timelike_lift c g v w /\
  rounded8 K Kin x v (fun d e x' v' => exists p q, four_velA e c (kn_covA e c G Cc o) x' v' = Ok (p, q) /\ near4 d p (si_position c x) /\ near4 d q (four_vel w v)).
Proof.
  intros HKin Hc Eg H0 Hn. assert (Hc' : c <> 0) by lra.
  destruct (velocity_rounded K c _ _ (kn_cov_follows K c G Cc o Hc') Kin x v g HKin Eg (si_sym c G Cc o _ _ (or_intror (or_intror Eg))) H0 Hn) as (w & E1 & E2 & E3 & R).
  exists w. split; [split; [exact E1|split; assumption]|exact R].
Qed.
Theorem sch_flow K Kin c G o x v g : 0 <= K -> 0 <= Kin -> 0 < c -> 0 < G ->
  MetricModel.sch_cov c G o (si_position c x) = Ok g -> 0 < mnth g 0 0 -> sin (c2 x) <> 0 -> norm2 g (four_vel 0 v) < c ^ 2 ->
  exists w, timelike_lift c g v w /\
  (exists T X W, 0 < T /\ X 0 = si_position c x /\ W 0 = four_vel w v /\ forall t, 0 <= t <= T -> locally t (moves (sch_f_vec c G o) X W)) /\
  forall T X W, 0 < T -> X 0 = si_position c x -> W 0 = four_vel w v -> (forall t, 0 <= t <= T -> locally t (moves (sch_f_vec c G o) X W)) ->
  flow_rounded K Kin c (fun e => sch_covA e c G o) (fun e => sch_fA e c G o) x v X W T.
Proof.
  intros HK HKin Hc HG Eg H0 Hs Hn. assert (Hc' : c <> 0) by lra.
  assert (DOM : mo_sys o = Sph /\ c1 x <> 0 /\ c1 x <> sch_rad c G o).
  { assert (E := Eg). rewrite <- (xz_pos (si_position c x)) in E. apply sch_cov_inv in E. destruct E as (S & D1 & D2 & _). cbn [zpos] in D1, D2. change (c1 x <> 0) in D1. change (1 - sch_rad c G o / c1 x <> 0) in D2.
    split; [exact S|]. split; [exact D1|]. intros N. apply D2. rewrite <- N. field. exact D1. }
  apply flow_gen with (cov := MetricModel.sch_cov c G o); try assumption.
  - apply sch_cov_follows. exact Hc'.
  - intros X W t0 T HT HM. exact (sch_rk4_rounded K c G o X W t0 T HK Hc HT HM).
  - intros w. destruct (proj2 (sch_christoffels_defined c G o (si_position c x))) as [ch E]; [destruct DOM as (S & D1 & D2); repeat split; assumption|].
    unfold sch_f_vec. rewrite (proj1 DOM), E. cbn [bindR]. eexists. reflexivity.
  - intros y w z Ez. apply (sch_motion_exists c G o y w z Hc HG (proj1 DOM) Ez).
  - apply (si_sym c G 1 o _ _ (or_introl Eg)).
Qed.
Theorem kerr_flow K Kin c G Cc o x v g : 0 <= K -> 0 <= Kin -> 0 < c ->
  kerr_cov c G Cc o (si_position c x) = Ok g -> 0 < mnth g 0 0 -> sin (c2 x) <> 0 -> norm2 g (four_vel 0 v) < c ^ 2 ->
  exists w, timelike_lift c g v w /\
  (exists T X W, 0 < T /\ X 0 = si_position c x /\ W 0 = four_vel w v /\ forall t, 0 <= t <= T -> locally t (moves (kerr_f_vec c G Cc o) X W)) /\
  forall T X W, 0 < T -> X 0 = si_position c x -> W 0 = four_vel w v -> (forall t, 0 <= t <= T -> locally t (moves (kerr_f_vec c G Cc o) X W)) ->
  flow_rounded K Kin c (fun e => kerr_covA e c G Cc o) (fun e => kerr_fA e c G Cc o) x v X W T.
Proof.
  intros HK HKin Hc Eg H0 Hs Hn. assert (Hc' : c <> 0) by lra.
  apply flow_gen with (cov := kerr_cov c G Cc o); try assumption.
  - apply kerr_cov_follows. exact Hc'.
  - intros X W t0 T HT HM. exact (kerr_rk4_rounded K c G Cc o X W t0 T HK Hc HT HM).
  - intros w. apply kerr_f_vec_defined; [exact Hc'|exact (kerr_cov_dom _ _ _ _ _ _ Eg)|exact Hs].
  - intros y w z Ez. apply (kerr_motion_exists c G Cc o y w z Hc Ez).
  - apply (si_sym c G Cc o _ _ (or_intror (or_introl Eg))).
Qed.
Theorem kn_flow K Kin c G Cc o x v g : 0 <= K -> 0 <= Kin -> 0 < c -> 0 < G -> 0 < Cc ->
  MetricModel.kn_cov c G Cc o (si_position c x) = Ok g -> 0 < mnth g 0 0 -> sin (c2 x) <> 0 -> norm2 g (four_vel 0 v) < c ^ 2 ->
  exists w, timelike_lift c g v w /\
  (exists T X W, 0 < T /\ X 0 = si_position c x /\ W 0 = four_vel w v /\ forall t, 0 <= t <= T -> locally t (moves (kn_f_vec c G Cc o) X W)) /\
  forall T X W, 0 < T -> X 0 = si_position c x -> W 0 = four_vel w v -> (forall t, 0 <= t <= T -> locally t (moves (kn_f_vec c G Cc o) X W)) ->
  flow_rounded K Kin c (fun e => kn_covA e c G Cc o) (fun e => kn_fA e c G Cc o) x v X W T.
Proof.
  intros HK HKin Hc HG HC Eg H0 Hs Hn. assert (Hc' : c <> 0) by lra.
  apply flow_gen with (cov := MetricModel.kn_cov c G Cc o); try assumption.
  - apply kn_cov_follows. exact Hc'.
  - intros X W t0 T HT HM. exact (kn_rk4_rounded K c G Cc o X W t0 T HK Hc HG HC HT HM).
  - intros w. apply kn_f_vec_defined; [exact Hc|exact HG|exact HC|exact (kn_cov_dom _ _ _ _ _ _ Eg)|exact Hs].
  - intros y w z Ez. apply (kn_charged_motion_exists c G Cc o y w z Hc HG HC Ez).
  - apply (si_sym c G Cc o _ _ (or_intror (or_intror Eg))).
Qed.
