(** C132: the SI classes: one motion for all proper time. *)
From Coq Require Import String Reals List ZArith Lra Lia Bool.
From Coquelicot Require Import Coquelicot.
From Verif Require Import Base Calc DualModel DualSpec DualProofs DualDiff GeoUtilsModel GeoUtilsSpec GeoUtilsProofs GeodesicModel GeodesicProofs CoordModel CoordProofs2 ConvModel ConvProofs
  FantasyModel FantasyProofs FantasyProofs2 FantasyProofs3 FantasyHam FantasyOrder FantasyGlobal FantasyGlobal2 FantasyGlobal3 FantasyShell FantasyCyclic FantasyCircular FloatModel FantasyCarter FloatPlane FloatGlobal ProgCont
  MetricModel MetricSpec MetricProofs MetricProofs2 MetricProofs3 MetricHamilton MetricHamilton2 MetricRK MetricCarter FloatInv Picard PicardProg.
From Verif Require Import ConvProofs2 MetricProofs6 MetricProofs7 MetricProofs8 MetricUnify FloatTrack FloatRK FloatRKG FloatMetricModel FloatMetric FloatMetric2 FloatMetric3 FloatMetric4 FloatMetric5 FloatMetric6 FloatMetric7 FloatMetric8 FloatVel FloatFlow.
From Verif Require Import Contin Leave GlobalHole GlobalHole2 GlobalMotion Fate Scatter FateOrbit2 FateSI.
From Verif Require Import Glue Forever.
Import ListNotations.
Open Scope R_scope.

(** (X, W) is a motion under f for all proper times t >= 0 from position x and velocity w *)
Definition motion_of (f : V4 -> V4 -> Res (V4 * V4)) (x w : V4) (X W : R -> V4) : Prop := X 0 = x /\ W 0 = w /\ forall t, 0 <= t -> locally t (moves f X W).

Section Gen.
Variables (f : V4 -> V4 -> Res (V4 * V4)) (x w : V4).
Hypothesis UQ : forall X W X' W' t, X 0 = X' 0 -> W 0 = W' 0 -> (forall u, Rmin 0 t <= u <= Rmax 0 t -> locally u (moves f X W) /\ locally u (moves f X' W')) -> X t = X' t /\ W t = W' t.
Lemma motion_of_unique X W X' W' : motion_of f x w X W -> motion_of f x w X' W' -> forall t, 0 <= t -> X t = X' t /\ W t = W' t.
Proof. intros (A1 & A2 & A3) (B1 & B2 & B3) t Ht. apply UQ; [congruence|congruence|]. rewrite Rmin_left, Rmax_right by lra. intros u Hu. split; [apply A3|apply B3]; lra. Qed.
Lemma one_motion : (forall T, 0 < T -> exists X W, X 0 = x /\ W 0 = w /\ forall t, 0 <= t <= T -> locally t (moves f X W)) ->
  exists X W, motion_of f x w X W /\ forall X' W' T, X' 0 = x -> W' 0 = w -> (forall t, 0 <= t <= T -> locally t (moves f X' W')) -> forall t, 0 <= t <= T -> X t = X' t /\ W t = W' t.
Proof. intros H. destruct (motion_forever f x w UQ H) as (X & W & E1 & E2 & HM & U). exists X, W. split; [split; [exact E1|split; [exact E2|exact HM]]|exact U]. Qed.
Lemma gen_barred r1 : (forall T, 0 <= T -> exists X W, X 0 = x /\ W 0 = w /\ forall t, 0 <= t <= T -> locally t (moves f X W) /\ r1 < c1 (X t) /\ 0 < c2 (X t) < PI) ->
  exists X W, motion_of f x w X W /\ forall t, 0 <= t -> r1 < c1 (X t) /\ 0 < c2 (X t) < PI.
Proof.
  intros H. destruct one_motion as (X & W & HO & U).
  { intros T HT. destruct (H T ltac:(lra)) as (X & W & A & B & C). exists X, W. split; [exact A|]. split; [exact B|]. intros t Ht. apply C. exact Ht. }
  exists X, W. split; [exact HO|]. intros t Ht. destruct (H t Ht) as (X' & W' & A & B & C). destruct (U X' W' t A B (fun u Hu => proj1 (C u Hu)) t ltac:(lra)) as [-> _]. apply C. lra.
Qed.
Lemma gen_bound r1 : (exists r2, forall T, 0 <= T -> exists X W, X 0 = x /\ W 0 = w /\ (forall t, 0 <= t <= T -> locally t (moves f X W)) /\ forall t, 0 <= t <= T -> r1 < c1 (X t) < r2) ->
  exists r2 X W, motion_of f x w X W /\ forall t, 0 <= t -> r1 < c1 (X t) < r2.
Proof.
  intros (r2 & H). destruct one_motion as (X & W & HO & U).
  { intros T HT. destruct (H T ltac:(lra)) as (X & W & A & B & C & _). exists X, W. split; [exact A|]. split; [exact B|exact C]. }
  exists r2, X, W. split; [exact HO|]. intros t Ht. destruct (H t Ht) as (X' & W' & A & B & C & D). destruct (U X' W' t A B C t ltac:(lra)) as [-> _]. apply D. lra.
Qed.
Lemma gen_escapes : (exists k, 0 < k /\ forall T, 0 <= T -> exists X W, X 0 = x /\ W 0 = w /\ (forall t, 0 <= t <= T -> locally t (moves f X W)) /\ forall t, 0 <= t <= T -> c1 x + k * t <= c1 (X t)) ->
  exists k X W, 0 < k /\ motion_of f x w X W /\ (forall t, 0 <= t -> c1 x + k * t <= c1 (X t)) /\ runs_off (fun t => c1 (X t)).
Proof.
  intros (k & Hk & H). destruct one_motion as (X & W & HO & U).
  { intros T HT. destruct (H T ltac:(lra)) as (X & W & A & B & C & _). exists X, W. split; [exact A|]. split; [exact B|exact C]. }
  assert (L : forall t, 0 <= t -> c1 x + k * t <= c1 (X t)). { intros t Ht. destruct (H t Ht) as (X' & W' & A & B & C & D). destruct (U X' W' t A B C t ltac:(lra)) as [-> _]. apply D. lra. }
  exists k, X, W. split; [exact Hk|]. split; [exact HO|]. split; [exact L|]. apply (runs_off_lin _ (c1 x) k 0 Hk). intros t Ht. rewrite Rminus_0_r. apply L. exact Ht.
Qed.
Lemma gen_scattered rt : (exists s s' k, 0 < s < s' /\ 0 < k /\ forall T, s' <= T -> exists X W, X 0 = x /\ W 0 = w /\ (forall t, 0 <= t <= T -> locally t (moves f X W)) /\ c1 (X s) = rt /\
    (forall t u, 0 <= t < u -> u <= s -> c1 (X u) < c1 (X t)) /\ (forall t u, s <= t < u -> u <= T -> c1 (X t) < c1 (X u)) /\ forall t, s' <= t <= T -> rt + k * (t - s') < c1 (X t)) ->
  exists s X W, 0 < s /\ motion_of f x w X W /\ c1 (X s) = rt /\ (forall t u, 0 <= t < u -> u <= s -> c1 (X u) < c1 (X t)) /\ (forall t u, s <= t < u -> c1 (X t) < c1 (X u)) /\ runs_off (fun t => c1 (X t)).
Proof.
  intros (s & s' & k & Hs & Hk & H). destruct one_motion as (X & W & HO & U).
  { intros T HT. destruct (H (Rmax s' T) (Rmax_l _ _)) as (X & W & A & B & C & _). exists X, W. split; [exact A|]. split; [exact B|]. intros t Ht. apply C. assert (M := Rmax_r s' T). lra. }
  assert (AG : forall T, s' <= T -> exists X', (forall t, 0 <= t <= T -> X t = X' t) /\ c1 (X' s) = rt /\ (forall t u, 0 <= t < u -> u <= s -> c1 (X' u) < c1 (X' t)) /\ (forall t u, s <= t < u -> u <= T -> c1 (X' t) < c1 (X' u)) /\ forall t, s' <= t <= T -> rt + k * (t - s') < c1 (X' t)).
  { intros T HT. destruct (H T HT) as (X' & W' & A & B & C & D1 & D2 & D3 & D4). exists X'. split; [intros t Ht; apply (U X' W' T A B C t Ht)|]. split; [exact D1|]. split; [exact D2|]. split; [exact D3|exact D4]. }
  exists s, X, W. split; [lra|]. split; [exact HO|]. destruct (AG s' (Rle_refl _)) as (X' & E & D1 & D2 & _).
  split; [rewrite E by lra; exact D1|]. split; [intros t u Htu Hu; rewrite !E by lra; apply D2; assumption|]. split.
  - intros t u Htu. destruct (AG (Rmax s' u) (Rmax_l _ _)) as (X2 & E2 & _ & _ & D3 & _). assert (M := Rmax_r s' u). rewrite !E2 by lra. apply D3; lra.
  - apply (runs_off_lin _ rt k s' Hk). intros t Ht'. destruct (AG t Ht') as (X2 & E2 & _ & _ & _ & D4). rewrite E2 by lra. left. apply D4. lra.
Qed.
End Gen.

Section KN.
Variables (c G Cc : R) (o : mobj).
Hypothesis Hc : 0 < c.
Hypothesis HG : 0 < G.
Hypothesis HC : 0 < Cc.
Let UQ := fun X W X' W' t => kn_charged_motion_unique c G Cc o X W X' W' t Hc HG HC.
(** two motions from the same initial data agree, whatever the charges *)
Theorem kn_motion_of_unique x w X W X' W' : motion_of (kn_f_vec c G Cc o) x w X W -> motion_of (kn_f_vec c G Cc o) x w X' W' -> forall t, 0 <= t -> X t = X' t /\ W t = W' t.
Proof. exact (motion_of_unique _ x w UQ X W X' W'). Qed.
(** the rows follow it over every interval *)
Theorem kn_motion_of_rows K Kin x v g : 0 <= K -> 0 <= Kin -> MetricModel.kn_cov c G Cc o (si_position c x) = Ok g -> 0 < mnth g 0 0 -> sin (c2 x) <> 0 -> norm2 g (four_vel 0 v) < c ^ 2 ->
  exists w, timelike_lift c g v w /\ forall X W, motion_of (kn_f_vec c G Cc o) (si_position c x) (four_vel w v) X W ->
    forall T, 0 < T -> flow_rounded K Kin c (fun e => kn_covA e c G Cc o) (fun e => kn_fA e c G Cc o) x v X W T.
Proof.
  intros HK HKin Eg H0 Hs Hn. destruct (kn_flow K Kin c G Cc o x v g HK HKin Hc HG HC Eg H0 Hs Hn) as (w & Hw & _ & F). exists w. split; [exact Hw|]. intros X W (A & B & C) T HT. apply (F T X W HT A B). intros t Ht. apply C. lra.
Qed.
Hypothesis HM : 0 < q_val (mo_M o).
Hypothesis Hsys : mo_sys o = BL.
Hypothesis Hspin : valid_spin o.
Hypothesis Hq : q_val (mo_q o) = 0.
Theorem kn_barred_forever x h w r1 : MetricModel.kn_cov c G Cc o x = Ok h -> barred_si c (sch_rad c G o) (al_of c G o) r1 x h w ->
  exists X W, motion_of (kn_f_vec c G Cc o) x w X W /\ forall t, 0 <= t -> r1 < c1 (X t) /\ 0 < c2 (X t) < PI.
Proof. intros E B. exact (gen_barred _ x w UQ r1 (kn_global c G Cc o Hc HG HC HM Hsys Hspin Hq x h w r1 E B)). Qed.
Theorem kn_escapes_forever x h w r1 : MetricModel.kn_cov c G Cc o x = Ok h -> exterior_si (sch_rad c G o) (al_of c G o) r1 x h w -> 0 < c1 w ->
  (forall r, c1 x <= r -> 0 < radial_si c (sch_rad c G o) (al_of c G o) x h w r) -> ConvProofs2.norm2 h w < (FloatInv.low 0 h w / c) * (FloatInv.low 0 h w / c) ->
  exists k X W, 0 < k /\ motion_of (kn_f_vec c G Cc o) x w X W /\ (forall t, 0 <= t -> c1 x + k * t <= c1 (X t)) /\ runs_off (fun t => c1 (X t)).
Proof. intros E H H1 H2 H3. exact (gen_escapes _ x w UQ (kn_escapes c G Cc o Hc HG HC HM Hsys Hspin Hq x h w r1 E H H1 H2 H3)). Qed.
Theorem kn_scattered_forever x h w r1 rt : MetricModel.kn_cov c G Cc o x = Ok h -> barred_si c (sch_rad c G o) (al_of c G o) r1 x h w -> c1 w < 0 -> rt < c1 x ->
  turning_point (radial_si c (sch_rad c G o) (al_of c G o) x h w) rt -> ConvProofs2.norm2 h w < (FloatInv.low 0 h w / c) * (FloatInv.low 0 h w / c) ->
  exists s X W, 0 < s /\ motion_of (kn_f_vec c G Cc o) x w X W /\ c1 (X s) = rt /\
    (forall t u, 0 <= t < u -> u <= s -> c1 (X u) < c1 (X t)) /\ (forall t u, s <= t < u -> c1 (X t) < c1 (X u)) /\ runs_off (fun t => c1 (X t)).
Proof. intros E H H1 H2 H3 H4. exact (gen_scattered _ x w UQ rt (kn_scattered c G Cc o Hc HG HC HM Hsys Hspin Hq x h w r1 rt E H H1 H2 H3 H4)). Qed.
Theorem kn_bound_forever x h w r1 : MetricModel.kn_cov c G Cc o x = Ok h -> barred_si c (sch_rad c G o) (al_of c G o) r1 x h w -> (FloatInv.low 0 h w / c) * (FloatInv.low 0 h w / c) < ConvProofs2.norm2 h w ->
  exists r2 X W, motion_of (kn_f_vec c G Cc o) x w X W /\ forall t, 0 <= t -> r1 < c1 (X t) < r2.
Proof. intros E H H1. exact (gen_bound _ x w UQ r1 (kn_bound c G Cc o Hc HG HC HM Hsys Hspin Hq x h w r1 E H H1)). Qed.
End KN.

Section Sch.
Variables (c G : R) (o : mobj).
Hypothesis Hc : 0 < c.
Hypothesis HG : 0 < G.
Hypothesis Hsys : mo_sys o = Sph.
Let UQ := fun X W X' W' t => sch_motion_unique c G o X W X' W' t Hc HG Hsys.
Theorem sch_motion_of_unique x w X W X' W' : motion_of (sch_f_vec c G o) x w X W -> motion_of (sch_f_vec c G o) x w X' W' -> forall t, 0 <= t -> X t = X' t /\ W t = W' t.
Proof. exact (motion_of_unique _ x w UQ X W X' W'). Qed.
Theorem sch_motion_of_rows K Kin x v g : 0 <= K -> 0 <= Kin -> MetricModel.sch_cov c G o (si_position c x) = Ok g -> 0 < mnth g 0 0 -> sin (c2 x) <> 0 -> norm2 g (four_vel 0 v) < c ^ 2 ->
  exists w, timelike_lift c g v w /\ forall X W, motion_of (sch_f_vec c G o) (si_position c x) (four_vel w v) X W ->
    forall T, 0 < T -> flow_rounded K Kin c (fun e => sch_covA e c G o) (fun e => sch_fA e c G o) x v X W T.
Proof.
  intros HK HKin Eg H0 Hs Hn. destruct (sch_flow K Kin c G o x v g HK HKin Hc HG Eg H0 Hs Hn) as (w & Hw & _ & F). exists w. split; [exact Hw|]. intros X W (A & B & C) T HT. apply (F T X W HT A B). intros t Ht. apply C. lra.
Qed.
Hypothesis HM : 0 < q_val (mo_M o).
Theorem sch_barred_forever x h w r1 : MetricModel.sch_cov c G o x = Ok h -> barred_si c (sch_rad c G o) 0 r1 x h w ->
  exists X W, motion_of (sch_f_vec c G o) x w X W /\ forall t, 0 <= t -> r1 < c1 (X t) /\ 0 < c2 (X t) < PI.
Proof. intros E B. exact (gen_barred _ x w UQ r1 (sch_global c G o x h w r1 Hc HG HM Hsys E B)). Qed.
Theorem sch_escapes_forever x h w r1 : MetricModel.sch_cov c G o x = Ok h -> exterior_si (sch_rad c G o) 0 r1 x h w -> 0 < c1 w ->
  (forall r, c1 x <= r -> 0 < radial_si c (sch_rad c G o) 0 x h w r) -> ConvProofs2.norm2 h w < (FloatInv.low 0 h w / c) * (FloatInv.low 0 h w / c) ->
  exists k X W, 0 < k /\ motion_of (sch_f_vec c G o) x w X W /\ (forall t, 0 <= t -> c1 x + k * t <= c1 (X t)) /\ runs_off (fun t => c1 (X t)).
Proof. intros E H H1 H2 H3. exact (gen_escapes _ x w UQ (sch_escapes c G o x h w r1 Hc HG HM Hsys E H H1 H2 H3)). Qed.
Theorem sch_scattered_forever x h w r1 rt : MetricModel.sch_cov c G o x = Ok h -> barred_si c (sch_rad c G o) 0 r1 x h w -> c1 w < 0 -> rt < c1 x ->
  turning_point (radial_si c (sch_rad c G o) 0 x h w) rt -> ConvProofs2.norm2 h w < (FloatInv.low 0 h w / c) * (FloatInv.low 0 h w / c) ->
  exists s X W, 0 < s /\ motion_of (sch_f_vec c G o) x w X W /\ c1 (X s) = rt /\
    (forall t u, 0 <= t < u -> u <= s -> c1 (X u) < c1 (X t)) /\ (forall t u, s <= t < u -> c1 (X t) < c1 (X u)) /\ runs_off (fun t => c1 (X t)).
Proof. intros E H H1 H2 H3 H4. exact (gen_scattered _ x w UQ rt (sch_scattered c G o x h w r1 rt Hc HG HM Hsys E H H1 H2 H3 H4)). Qed.
Theorem sch_bound_forever x h w r1 : MetricModel.sch_cov c G o x = Ok h -> barred_si c (sch_rad c G o) 0 r1 x h w -> (FloatInv.low 0 h w / c) * (FloatInv.low 0 h w / c) < ConvProofs2.norm2 h w ->
  exists r2 X W, motion_of (sch_f_vec c G o) x w X W /\ forall t, 0 <= t -> r1 < c1 (X t) < r2.
Proof. intros E H H1. exact (gen_bound _ x w UQ r1 (sch_bound c G o x h w r1 Hc HG HM Hsys E H H1)). Qed.
End Sch.
