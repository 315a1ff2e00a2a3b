(** C130: the public SI flow, position and velocity in, RK4 rows out, for each fate. *)
From Coq Require Import String Reals List ZArith Lra Lia Bool.
From Coquelicot Require Import Coquelicot.
From Verif Require Import Base Calc DualModel DualSpec DualProofs DualDiff GeoUtilsModel GeoUtilsSpec GeoUtilsProofs GeodesicModel GeodesicProofs CoordModel CoordProofs2 ConvModel ConvProofs
  FantasyModel FantasyProofs FantasyProofs2 FantasyProofs3 FantasyHam FantasyOrder FantasyGlobal FantasyGlobal2 FantasyGlobal3 FantasyShell FantasyCyclic FantasyCircular FloatModel FantasyCarter FloatPlane FloatGlobal ProgCont
  MetricModel MetricSpec MetricProofs MetricProofs2 MetricProofs3 MetricHamilton MetricHamilton2 MetricRK MetricCarter FloatInv Picard PicardProg.
From Verif Require Import ConvProofs2 MetricProofs6 MetricProofs7 MetricProofs8 MetricUnify FloatTrack FloatRK FloatRKG FloatMetricModel FloatMetric FloatMetric2 FloatMetric3 FloatMetric4 FloatMetric5 FloatMetric6 FloatMetric7 FloatMetric8 FloatVel FloatFlow.
From Verif Require Import Contin Leave GlobalHole GlobalHole2 GlobalMotion.
From Verif Require Import Fate Scatter FateOrbit2 FateSI.
Import ListNotations.
Open Scope R_scope.
Theorem kn_reach_flow K Kin c G Cc o x v h w r1 : 0 <= K -> 0 <= Kin -> 0 < c -> 0 < G -> 0 < Cc -> 0 < q_val (mo_M o) -> q_val (mo_q o) = 0 ->
  MetricModel.kn_cov c G Cc o (si_position c x) = Ok h -> 0 < mnth h 0 0 -> norm2 h (four_vel 0 v) < c ^ 2 -> timelike_lift c h v w ->
  exterior_si (sch_rad c G o) (al_of c G o) r1 (si_position c x) h (four_vel w v) -> forall T, 0 < T ->
  exists S X W, 0 < S <= T /\ X 0 = si_position c x /\ W 0 = four_vel w v /\ (forall t, 0 <= t <= S -> locally t (moves (kn_f_vec c G Cc o) X W)) /\
  flow_rounded K Kin c (fun e => kn_covA e c G Cc o) (fun e => kn_fA e c G Cc o) x v X W S /\ (forall t, 0 <= t < S -> r1 < c1 (X t)) /\ (S = T /\ r1 < c1 (X S) \/ c1 (X S) = r1).
Proof.
  intros HK HKin Hc HG HC HM Hq Eg H0 Hn Hw HB . destruct (kn_cov_dom _ _ _ _ _ _ Eg) as (S0 & Sp & _).
  assert (Hs : sin (c2 x) <> 0) by (apply Rgt_not_eq, sin_gt_0; apply HB).
  assert (NN : ConvProofs2.norm2 h (four_vel w v) = c ^ 2) by apply Hw.
  destruct (kn_flow K Kin c G Cc o x v h HK HKin Hc HG HC Eg H0 Hs Hn) as (w' & Hw' & _ & F).
  assert (w' = w) as ->. { destruct Hw as (A & _), Hw' as (B & _). rewrite A in B. apply Ok_inj in B. symmetry. exact B. }
  assert (B := kn_reach c G Cc o Hc HG HC HM S0 Sp Hq (si_position c x) h (four_vel w v) r1 Eg HB). 
  intros T HT. destruct (B T HT) as (S & X & W & A1 & A2 & A3 & A4 & A5). exists S, X, W. split; [exact A1|]. split; [exact A2|]. split; [exact A3|]. split; [exact A4|]. split; [exact (F S X W ltac:(lra) A2 A3 A4)|exact A5].
Qed.
Theorem kn_captured_flow K Kin c G Cc o x v h w r1 : 0 <= K -> 0 <= Kin -> 0 < c -> 0 < G -> 0 < Cc -> 0 < q_val (mo_M o) -> q_val (mo_q o) = 0 ->
  MetricModel.kn_cov c G Cc o (si_position c x) = Ok h -> 0 < mnth h 0 0 -> norm2 h (four_vel 0 v) < c ^ 2 -> timelike_lift c h v w ->
  exterior_si (sch_rad c G o) (al_of c G o) r1 (si_position c x) h (four_vel w v) -> c1 (four_vel w v) < 0 ->
  (forall r, r1 <= r <= c1 x -> 0 < radial_si c (sch_rad c G o) (al_of c G o) (si_position c x) h (four_vel w v) r) ->
  exists S X W, 0 < S /\ X 0 = si_position c x /\ W 0 = four_vel w v /\ (forall t, 0 <= t <= S -> locally t (moves (kn_f_vec c G Cc o) X W)) /\
  flow_rounded K Kin c (fun e => kn_covA e c G Cc o) (fun e => kn_fA e c G Cc o) x v X W S /\ c1 (X S) = r1 /\ forall t u, 0 <= t < u -> u <= S -> c1 (X u) < c1 (X t).
Proof.
  intros HK HKin Hc HG HC HM Hq Eg H0 Hn Hw HB H1 H2. destruct (kn_cov_dom _ _ _ _ _ _ Eg) as (S0 & Sp & _).
  assert (Hs : sin (c2 x) <> 0) by (apply Rgt_not_eq, sin_gt_0; apply HB).
  assert (NN : ConvProofs2.norm2 h (four_vel w v) = c ^ 2) by apply Hw.
  destruct (kn_flow K Kin c G Cc o x v h HK HKin Hc HG HC Eg H0 Hs Hn) as (w' & Hw' & _ & F).
  assert (w' = w) as ->. { destruct Hw as (A & _), Hw' as (B & _). rewrite A in B. apply Ok_inj in B. symmetry. exact B. }
  assert (B := kn_captured c G Cc o Hc HG HC HM S0 Sp Hq (si_position c x) h (four_vel w v) r1 Eg HB). rewrite ?NN in B. specialize (B H1 H2).
  destruct B as (S & X & W & A1 & A2 & A3 & A4 & A5). exists S, X, W. split; [exact A1|]. split; [exact A2|]. split; [exact A3|]. split; [exact A4|]. split; [exact (F S X W A1 A2 A3 A4)|exact A5].
Qed.
Theorem kn_escapes_flow K Kin c G Cc o x v h w r1 : 0 <= K -> 0 <= Kin -> 0 < c -> 0 < G -> 0 < Cc -> 0 < q_val (mo_M o) -> q_val (mo_q o) = 0 ->
  MetricModel.kn_cov c G Cc o (si_position c x) = Ok h -> 0 < mnth h 0 0 -> norm2 h (four_vel 0 v) < c ^ 2 -> timelike_lift c h v w ->
  exterior_si (sch_rad c G o) (al_of c G o) r1 (si_position c x) h (four_vel w v) -> 0 < c1 (four_vel w v) ->
  (forall r, c1 x <= r -> 0 < radial_si c (sch_rad c G o) (al_of c G o) (si_position c x) h (four_vel w v) r) -> c ^ 2 < (FloatInv.low 0 h (four_vel w v) / c) * (FloatInv.low 0 h (four_vel w v) / c) ->
  exists k, 0 < k /\ forall T, 0 < T -> exists X W, X 0 = si_position c x /\ W 0 = four_vel w v /\ (forall t, 0 <= t <= T -> locally t (moves (kn_f_vec c G Cc o) X W)) /\
  flow_rounded K Kin c (fun e => kn_covA e c G Cc o) (fun e => kn_fA e c G Cc o) x v X W T /\ forall t, 0 <= t <= T -> c1 x + k * t <= c1 (X t).
Proof.
  intros HK HKin Hc HG HC HM Hq Eg H0 Hn Hw HB H1 H2 H3. destruct (kn_cov_dom _ _ _ _ _ _ Eg) as (S0 & Sp & _).
  assert (Hs : sin (c2 x) <> 0) by (apply Rgt_not_eq, sin_gt_0; apply HB).
  assert (NN : ConvProofs2.norm2 h (four_vel w v) = c ^ 2) by apply Hw.
  destruct (kn_flow K Kin c G Cc o x v h HK HKin Hc HG HC Eg H0 Hs Hn) as (w' & Hw' & _ & F).
  assert (w' = w) as ->. { destruct Hw as (A & _), Hw' as (B & _). rewrite A in B. apply Ok_inj in B. symmetry. exact B. }
  assert (B := kn_escapes c G Cc o Hc HG HC HM S0 Sp Hq (si_position c x) h (four_vel w v) r1 Eg HB). rewrite ?NN in B. specialize (B H1 H2 H3).
  destruct B as (k & Hk & B). exists k. split; [exact Hk|]. intros T HT. destruct (B T ltac:(lra)) as (X & W & A2 & A3 & A4 & A5). exists X, W. split; [exact A2|]. split; [exact A3|]. split; [exact A4|]. split; [exact (F T X W ltac:(lra) A2 A3 A4)|exact A5].
Qed.
Theorem kn_scattered_flow K Kin c G Cc o x v h w r1 rt : 0 <= K -> 0 <= Kin -> 0 < c -> 0 < G -> 0 < Cc -> 0 < q_val (mo_M o) -> q_val (mo_q o) = 0 ->
  MetricModel.kn_cov c G Cc o (si_position c x) = Ok h -> 0 < mnth h 0 0 -> norm2 h (four_vel 0 v) < c ^ 2 -> timelike_lift c h v w ->
  barred_si c (sch_rad c G o) (al_of c G o) r1 (si_position c x) h (four_vel w v) -> c1 (four_vel w v) < 0 -> rt < c1 x ->
  turning_point (radial_si c (sch_rad c G o) (al_of c G o) (si_position c x) h (four_vel w v)) rt -> c ^ 2 < (FloatInv.low 0 h (four_vel w v) / c) * (FloatInv.low 0 h (four_vel w v) / c) ->
  exists s s' k, 0 < s < s' /\ 0 < k /\ forall T, s' <= T -> exists X W, X 0 = si_position c x /\ W 0 = four_vel w v /\ (forall t, 0 <= t <= T -> locally t (moves (kn_f_vec c G Cc o) X W)) /\
  flow_rounded K Kin c (fun e => kn_covA e c G Cc o) (fun e => kn_fA e c G Cc o) x v X W T /\ c1 (X s) = rt /\
    (forall t u, 0 <= t < u -> u <= s -> c1 (X u) < c1 (X t)) /\ (forall t u, s <= t < u -> u <= T -> c1 (X t) < c1 (X u)) /\ forall t, s' <= t <= T -> rt + k * (t - s') < c1 (X t).
Proof.
  intros HK HKin Hc HG HC HM Hq Eg H0 Hn Hw HB H1 H2 H3 H4. destruct (kn_cov_dom _ _ _ _ _ _ Eg) as (S0 & Sp & _).
  assert (Hs : sin (c2 x) <> 0) by (apply Rgt_not_eq, sin_gt_0; apply HB).
  assert (NN : ConvProofs2.norm2 h (four_vel w v) = c ^ 2) by apply Hw.
  destruct (kn_flow K Kin c G Cc o x v h HK HKin Hc HG HC Eg H0 Hs Hn) as (w' & Hw' & _ & F).
  assert (w' = w) as ->. { destruct Hw as (A & _), Hw' as (B & _). rewrite A in B. apply Ok_inj in B. symmetry. exact B. }
  assert (B := kn_scattered c G Cc o Hc HG HC HM S0 Sp Hq (si_position c x) h (four_vel w v) r1 rt Eg HB). rewrite ?NN in B. specialize (B H1 H2 H3 H4).
  destruct B as (s & s' & k & Hss & Hk & B). exists s, s', k. split; [exact Hss|]. split; [exact Hk|]. intros T HT. destruct (B T HT) as (X & W & A2 & A3 & A4 & A5). exists X, W. split; [exact A2|]. split; [exact A3|]. split; [exact A4|]. split; [exact (F T X W ltac:(lra) A2 A3 A4)|exact A5].
Qed.
Theorem kn_bound_flow K Kin c G Cc o x v h w r1 : 0 <= K -> 0 <= Kin -> 0 < c -> 0 < G -> 0 < Cc -> 0 < q_val (mo_M o) -> q_val (mo_q o) = 0 ->
  MetricModel.kn_cov c G Cc o (si_position c x) = Ok h -> 0 < mnth h 0 0 -> norm2 h (four_vel 0 v) < c ^ 2 -> timelike_lift c h v w ->
  barred_si c (sch_rad c G o) (al_of c G o) r1 (si_position c x) h (four_vel w v) -> (FloatInv.low 0 h (four_vel w v) / c) * (FloatInv.low 0 h (four_vel w v) / c) < c ^ 2 ->
  exists r2, forall T, 0 < T -> exists X W, X 0 = si_position c x /\ W 0 = four_vel w v /\ (forall t, 0 <= t <= T -> locally t (moves (kn_f_vec c G Cc o) X W)) /\
  flow_rounded K Kin c (fun e => kn_covA e c G Cc o) (fun e => kn_fA e c G Cc o) x v X W T /\ forall t, 0 <= t <= T -> r1 < c1 (X t) < r2.
Proof.
  intros HK HKin Hc HG HC HM Hq Eg H0 Hn Hw HB H1. destruct (kn_cov_dom _ _ _ _ _ _ Eg) as (S0 & Sp & _).
  assert (Hs : sin (c2 x) <> 0) by (apply Rgt_not_eq, sin_gt_0; apply HB).
  assert (NN : ConvProofs2.norm2 h (four_vel w v) = c ^ 2) by apply Hw.
  destruct (kn_flow K Kin c G Cc o x v h HK HKin Hc HG HC Eg H0 Hs Hn) as (w' & Hw' & _ & F).
  assert (w' = w) as ->. { destruct Hw as (A & _), Hw' as (B & _). rewrite A in B. apply Ok_inj in B. symmetry. exact B. }
  assert (B := kn_bound c G Cc o Hc HG HC HM S0 Sp Hq (si_position c x) h (four_vel w v) r1 Eg HB). rewrite ?NN in B. specialize (B H1).
  destruct B as (r2 & B). exists r2. intros T HT. destruct (B T ltac:(lra)) as (X & W & A2 & A3 & A4 & A5). exists X, W. split; [exact A2|]. split; [exact A3|]. split; [exact A4|]. split; [exact (F T X W ltac:(lra) A2 A3 A4)|exact A5].
Qed.
Theorem sch_reach_flow K Kin c G o x v h w r1 : 0 <= K -> 0 <= Kin -> 0 < c -> 0 < G -> 0 < q_val (mo_M o) ->
  MetricModel.sch_cov c G o (si_position c x) = Ok h -> 0 < mnth h 0 0 -> norm2 h (four_vel 0 v) < c ^ 2 -> timelike_lift c h v w ->
  exterior_si (sch_rad c G o) 0 r1 (si_position c x) h (four_vel w v) -> forall T, 0 < T ->
  exists S X W, 0 < S <= T /\ X 0 = si_position c x /\ W 0 = four_vel w v /\ (forall t, 0 <= t <= S -> locally t (moves (sch_f_vec c G o) X W)) /\
  flow_rounded K Kin c (fun e => sch_covA e c G o) (fun e => sch_fA e c G o) x v X W S /\ (forall t, 0 <= t < S -> r1 < c1 (X t)) /\ (S = T /\ r1 < c1 (X S) \/ c1 (X S) = r1).
Proof.
  intros HK HKin Hc HG HM Eg H0 Hn Hw HB .
  assert (S0 : mo_sys o = Sph). { assert (E := Eg). rewrite <- (xz_pos (si_position c x)) in E. apply sch_cov_inv in E. apply E. }
  assert (Hs : sin (c2 x) <> 0) by (apply Rgt_not_eq, sin_gt_0; apply HB).
  assert (NN : ConvProofs2.norm2 h (four_vel w v) = c ^ 2) by apply Hw.
  destruct (sch_flow K Kin c G o x v h HK HKin Hc HG Eg H0 Hs Hn) as (w' & Hw' & _ & F).
  assert (w' = w) as ->. { destruct Hw as (A & _), Hw' as (B & _). rewrite A in B. apply Ok_inj in B. symmetry. exact B. }
  assert (B := sch_reach c G o (si_position c x) h (four_vel w v) r1 Hc HG HM S0 Eg HB). 
  intros T HT. destruct (B T HT) as (S & X & W & A1 & A2 & A3 & A4 & A5). exists S, X, W. split; [exact A1|]. split; [exact A2|]. split; [exact A3|]. split; [exact A4|]. split; [exact (F S X W ltac:(lra) A2 A3 A4)|exact A5].
Qed.
Theorem sch_captured_flow K Kin c G o x v h w r1 : 0 <= K -> 0 <= Kin -> 0 < c -> 0 < G -> 0 < q_val (mo_M o) ->
  MetricModel.sch_cov c G o (si_position c x) = Ok h -> 0 < mnth h 0 0 -> norm2 h (four_vel 0 v) < c ^ 2 -> timelike_lift c h v w ->
  exterior_si (sch_rad c G o) 0 r1 (si_position c x) h (four_vel w v) -> c1 (four_vel w v) < 0 ->
  (forall r, r1 <= r <= c1 x -> 0 < radial_si c (sch_rad c G o) 0 (si_position c x) h (four_vel w v) r) ->
  exists S X W, 0 < S /\ X 0 = si_position c x /\ W 0 = four_vel w v /\ (forall t, 0 <= t <= S -> locally t (moves (sch_f_vec c G o) X W)) /\
  flow_rounded K Kin c (fun e => sch_covA e c G o) (fun e => sch_fA e c G o) x v X W S /\ c1 (X S) = r1 /\ forall t u, 0 <= t < u -> u <= S -> c1 (X u) < c1 (X t).
Proof.
  intros HK HKin Hc HG HM Eg H0 Hn Hw HB H1 H2.
  assert (S0 : mo_sys o = Sph). { assert (E := Eg). rewrite <- (xz_pos (si_position c x)) in E. apply sch_cov_inv in E. apply E. }
  assert (Hs : sin (c2 x) <> 0) by (apply Rgt_not_eq, sin_gt_0; apply HB).
  assert (NN : ConvProofs2.norm2 h (four_vel w v) = c ^ 2) by apply Hw.
  destruct (sch_flow K Kin c G o x v h HK HKin Hc HG Eg H0 Hs Hn) as (w' & Hw' & _ & F).
  assert (w' = w) as ->. { destruct Hw as (A & _), Hw' as (B & _). rewrite A in B. apply Ok_inj in B. symmetry. exact B. }
  assert (B := sch_captured c G o (si_position c x) h (four_vel w v) r1 Hc HG HM S0 Eg HB). rewrite ?NN in B. specialize (B H1 H2).
  destruct B as (S & X & W & A1 & A2 & A3 & A4 & A5). exists S, X, W. split; [exact A1|]. split; [exact A2|]. split; [exact A3|]. split; [exact A4|]. split; [exact (F S X W A1 A2 A3 A4)|exact A5].
Qed.
Theorem sch_escapes_flow K Kin c G o x v h w r1 : 0 <= K -> 0 <= Kin -> 0 < c -> 0 < G -> 0 < q_val (mo_M o) ->
  MetricModel.sch_cov c G o (si_position c x) = Ok h -> 0 < mnth h 0 0 -> norm2 h (four_vel 0 v) < c ^ 2 -> timelike_lift c h v w ->
  exterior_si (sch_rad c G o) 0 r1 (si_position c x) h (four_vel w v) -> 0 < c1 (four_vel w v) ->
  (forall r, c1 x <= r -> 0 < radial_si c (sch_rad c G o) 0 (si_position c x) h (four_vel w v) r) -> c ^ 2 < (FloatInv.low 0 h (four_vel w v) / c) * (FloatInv.low 0 h (four_vel w v) / c) ->
  exists k, 0 < k /\ forall T, 0 < T -> exists X W, X 0 = si_position c x /\ W 0 = four_vel w v /\ (forall t, 0 <= t <= T -> locally t (moves (sch_f_vec c G o) X W)) /\
  flow_rounded K Kin c (fun e => sch_covA e c G o) (fun e => sch_fA e c G o) x v X W T /\ forall t, 0 <= t <= T -> c1 x + k * t <= c1 (X t).
Proof.
  intros HK HKin Hc HG HM Eg H0 Hn Hw HB H1 H2 H3.
  assert (S0 : mo_sys o = Sph). { assert (E := Eg). rewrite <- (xz_pos (si_position c x)) in E. apply sch_cov_inv in E. apply E. }
  assert (Hs : sin (c2 x) <> 0) by (apply Rgt_not_eq, sin_gt_0; apply HB).
  assert (NN : ConvProofs2.norm2 h (four_vel w v) = c ^ 2) by apply Hw.
  destruct (sch_flow K Kin c G o x v h HK HKin Hc HG Eg H0 Hs Hn) as (w' & Hw' & _ & F).
  assert (w' = w) as ->. { destruct Hw as (A & _), Hw' as (B & _). rewrite A in B. apply Ok_inj in B. symmetry. exact B. }
  assert (B := sch_escapes c G o (si_position c x) h (four_vel w v) r1 Hc HG HM S0 Eg HB). rewrite ?NN in B. specialize (B H1 H2 H3).
  destruct B as (k & Hk & B). exists k. split; [exact Hk|]. intros T HT. destruct (B T ltac:(lra)) as (X & W & A2 & A3 & A4 & A5). exists X, W. split; [exact A2|]. split; [exact A3|]. split; [exact A4|]. split; [exact (F T X W ltac:(lra) A2 A3 A4)|exact A5].
Qed.
Theorem sch_scattered_flow K Kin c G o x v h w r1 rt : 0 <= K -> 0 <= Kin -> 0 < c -> 0 < G -> 0 < q_val (mo_M o) ->
  MetricModel.sch_cov c G o (si_position c x) = Ok h -> 0 < mnth h 0 0 -> norm2 h (four_vel 0 v) < c ^ 2 -> timelike_lift c h v w ->
  barred_si c (sch_rad c G o) 0 r1 (si_position c x) h (four_vel w v) -> c1 (four_vel w v) < 0 -> rt < c1 x ->
  turning_point (radial_si c (sch_rad c G o) 0 (si_position c x) h (four_vel w v)) rt -> c ^ 2 < (FloatInv.low 0 h (four_vel w v) / c) * (FloatInv.low 0 h (four_vel w v) / c) ->
  exists s s' k, 0 < s < s' /\ 0 < k /\ forall T, s' <= T -> exists X W, X 0 = si_position c x /\ W 0 = four_vel w v /\ (forall t, 0 <= t <= T -> locally t (moves (sch_f_vec c G o) X W)) /\
  flow_rounded K Kin c (fun e => sch_covA e c G o) (fun e => sch_fA e c G o) x v X W T /\ c1 (X s) = rt /\
    (forall t u, 0 <= t < u -> u <= s -> c1 (X u) < c1 (X t)) /\ (forall t u, s <= t < u -> u <= T -> c1 (X t) < c1 (X u)) /\ forall t, s' <= t <= T -> rt + k * (t - s') < c1 (X t).
Proof.
  intros HK HKin Hc HG HM Eg H0 Hn Hw HB H1 H2 H3 H4.
  assert (S0 : mo_sys o = Sph). { assert (E := Eg). rewrite <- (xz_pos (si_position c x)) in E. apply sch_cov_inv in E. apply E. }
  assert (Hs : sin (c2 x) <> 0) by (apply Rgt_not_eq, sin_gt_0; apply HB).
  assert (NN : ConvProofs2.norm2 h (four_vel w v) = c ^ 2) by apply Hw.
  destruct (sch_flow K Kin c G o x v h HK HKin Hc HG Eg H0 Hs Hn) as (w' & Hw' & _ & F).
  assert (w' = w) as ->. { destruct Hw as (A & _), Hw' as (B & _). rewrite A in B. apply Ok_inj in B. symmetry. exact B. }
  assert (B := sch_scattered c G o (si_position c x) h (four_vel w v) r1 rt Hc HG HM S0 Eg HB). rewrite ?NN in B. specialize (B H1 H2 H3 H4).
  destruct B as (s & s' & k & Hss & Hk & B). exists s, s', k. split; [exact Hss|]. split; [exact Hk|]. intros T HT. destruct (B T HT) as (X & W & A2 & A3 & A4 & A5). exists X, W. split; [exact A2|]. split; [exact A3|]. split; [exact A4|]. split; [exact (F T X W ltac:(lra) A2 A3 A4)|exact A5].
Qed.
Theorem sch_bound_flow K Kin c G o x v h w r1 : 0 <= K -> 0 <= Kin -> 0 < c -> 0 < G -> 0 < q_val (mo_M o) ->
  MetricModel.sch_cov c G o (si_position c x) = Ok h -> 0 < mnth h 0 0 -> norm2 h (four_vel 0 v) < c ^ 2 -> timelike_lift c h v w ->
  barred_si c (sch_rad c G o) 0 r1 (si_position c x) h (four_vel w v) -> (FloatInv.low 0 h (four_vel w v) / c) * (FloatInv.low 0 h (four_vel w v) / c) < c ^ 2 ->
  exists r2, forall T, 0 < T -> exists X W, X 0 = si_position c x /\ W 0 = four_vel w v /\ (forall t, 0 <= t <= T -> locally t (moves (sch_f_vec c G o) X W)) /\
  flow_rounded K Kin c (fun e => sch_covA e c G o) (fun e => sch_fA e c G o) x v X W T /\ forall t, 0 <= t <= T -> r1 < c1 (X t) < r2.
Proof.
  intros HK HKin Hc HG HM Eg H0 Hn Hw HB H1.
  assert (S0 : mo_sys o = Sph). { assert (E := Eg). rewrite <- (xz_pos (si_position c x)) in E. apply sch_cov_inv in E. apply E. }
  assert (Hs : sin (c2 x) <> 0) by (apply Rgt_not_eq, sin_gt_0; apply HB).
  assert (NN : ConvProofs2.norm2 h (four_vel w v) = c ^ 2) by apply Hw.
  destruct (sch_flow K Kin c G o x v h HK HKin Hc HG Eg H0 Hs Hn) as (w' & Hw' & _ & F).
  assert (w' = w) as ->. { destruct Hw as (A & _), Hw' as (B & _). rewrite A in B. apply Ok_inj in B. symmetry. exact B. }
  assert (B := sch_bound c G o (si_position c x) h (four_vel w v) r1 Hc HG HM S0 Eg HB). rewrite ?NN in B. specialize (B H1).
  destruct B as (r2 & B). exists r2. intros T HT. destruct (B T ltac:(lra)) as (X & W & A2 & A3 & A4 & A5). exists X, W. split; [exact A2|]. split; [exact A3|]. split; [exact A4|]. split; [exact (F T X W ltac:(lra) A2 A3 A4)|exact A5].
Qed.
