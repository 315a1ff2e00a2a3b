(** C132: enough precision and a small enough step give any accuracy over any interval. *)
From Coq Require Import String Reals List ZArith Lra Lia Bool.
From Coquelicot Require Import Coquelicot.
From Verif Require Import Base Calc DualModel DualSpec DualProofs DualDiff GeoUtilsModel GeoUtilsSpec GeoUtilsProofs GeodesicModel GeodesicProofs CoordModel CoordProofs2 ConvModel ConvProofs
  FantasyModel FantasyProofs FantasyProofs2 FantasyProofs3 FantasyHam FantasyOrder FantasyGlobal FantasyGlobal2 FantasyGlobal3 FantasyShell FantasyCyclic FantasyCircular FloatModel FantasyCarter FloatPlane FloatGlobal ProgCont
  MetricModel MetricSpec MetricProofs MetricProofs2 MetricProofs3 MetricHamilton MetricHamilton2 MetricRK MetricCarter FloatInv Picard PicardProg.
From Verif Require Import ConvProofs2 MetricProofs6 MetricProofs7 MetricProofs8 MetricUnify FloatTrack FloatRK FloatRKG FloatMetricModel FloatMetric FloatMetric2 FloatMetric3 FloatMetric4 FloatMetric5 FloatMetric6 FloatMetric7 FloatMetric8 FloatVel FloatFlow.
From Verif Require Import Contin Leave GlobalHole GlobalHole2 GlobalMotion Fate Scatter FateOrbit2 FateSI.

Import ListNotations.
Open Scope R_scope.
From Verif Require Import FloatIEEE FloatTraj FateOrbit FloatLU Forever ForeverSI.
Import ListNotations.
Open Scope R_scope.

Lemma pow_small h n : (1 <= n)%nat -> 0 < h <= 1 -> h ^ n <= h.
Proof.
  intros Hn Hh. destruct n as [|n]; [lia|]. rewrite <- tech_pow_Rmult. assert (h ^ n <= 1) by (rewrite <- (pow1 n); apply pow_incr; lra). assert (h * h ^ n <= h * 1) by (apply Rmult_le_compat_l; lra). lra.
Qed.
(** the choice of the step, then of the roundoff *)
Lemma choice K r eps n : 0 <= K -> 0 < r -> 0 < eps -> (1 <= n)%nat -> exists h0, 0 < h0 /\ forall h, 0 < h <= h0 -> h <= r /\
  exists u0, 0 < u0 /\ forall u, 0 <= u < u0 -> u / h <= r /\ K * u <= eps /\ K * (h ^ n + u / h) <= eps.
Proof.
  intros HK Hr He Hn. assert (B : 0 < eps / (2 * (K + 1))) by (apply Rdiv_lt_0_compat; lra). set (d := eps / (2 * (K + 1))) in *. assert (Ed : 2 * (K + 1) * d = eps) by (unfold d; field; lra).
  exists (Rmin 1 (Rmin r d)). split; [repeat apply Rmin_glb_lt; lra|]. intros h Hh. assert (M1 := Rmin_l 1 (Rmin r d)). assert (M2 := Rmin_r 1 (Rmin r d)). assert (M3 := Rmin_l r d). assert (M4 := Rmin_r r d).
  split; [lra|]. exists (h * Rmin r d). split; [apply Rmult_lt_0_compat; [lra|apply Rmin_glb_lt; lra]|]. intros u Hu.
  assert (Q : u / h <= Rmin r d). { apply Rmult_le_reg_l with h; [lra|]. replace (h * (u / h)) with u by (field; lra). lra. }
  assert (Q0 : 0 <= u / h) by (apply Rmult_le_pos; [lra|left; apply Rinv_0_lt_compat; lra]).
  assert (P := pow_small h n Hn ltac:(lra)). assert (Kd : 0 <= K * d) by (apply Rmult_le_pos; lra).
  split; [lra|]. split.
  - assert (u <= d). { apply Rle_trans with (h * d); [|nra]. apply Rle_trans with (h * Rmin r d); [lra|apply Rmult_le_compat_l; lra]. } assert (K * u <= K * d) by (apply Rmult_le_compat_l; lra). nra.
  - assert (K * (h ^ n + u / h) <= K * (d + d)) by (apply Rmult_le_compat_l; lra). nra.
Qed.
Lemma vclose_le e e' v w : e <= e' -> vclose e v w -> vclose e' v w.
Proof. intros H V i Hi. eapply Rle_trans; [exact (V i Hi)|exact H]. Qed.

(** Geodesic in IEEE arithmetic: any accuracy over any interval *)
Definition reaches_accuracy (s : string) (prms : list R) (x1 x2 x3 u1 u2 u3 : R) (tl : bool) (order : nat) (w : R) (q p : R -> V4) (T : R) : Prop :=
  forall eps, 0 < eps -> exists h0, 0 < h0 /\ forall h, 0 < h <= h0 -> exists bits, forall F L, usable F -> libm_ok F L -> (bits <= prec F)%Z -> forall N, (0 < N)%nat -> INR N * h <= T ->
  exists P' rows, geodesicA (ieee F L) (MName s) prms (x1, x2, x3) (u1, u2, u3) tl false N h order w = Ok (P', rows) /\ vclose eps P' (p 0) /\ length rows = N /\
  forall k row, nth_error rows k = Some row -> vclose eps (fst row) (q (INR (Datatypes.S k) * h)) /\ vclose eps (snd row) (p (INR (Datatypes.S k) * h)).
Theorem rows_precise s prms x1 x2 x3 u1 u2 u3 tl order w n q p T : (1 <= n)%nat -> rows_follow s prms x1 x2 x3 u1 u2 u3 tl order w n q p T -> reaches_accuracy s prms x1 x2 x3 u1 u2 u3 tl order w q p T.
Proof.
  intros Hn (K & r & HK & Hr & F) eps He. destruct (choice K r eps n HK Hr He Hn) as (h0 & H0 & C). exists h0. split; [exact H0|]. intros h Hh. destruct (C h Hh) as (C1 & u0 & U0 & C2).
  destruct (uF_small u0 U0) as (p0 & _ & HP). exists p0. intros Fm L HU HL Hb N HN HT. assert (U := HP Fm Hb). destruct (C2 (uF Fm) ltac:(lra)) as (D1 & D2 & D3).
  destruct (F (uF Fm) (ieee Fm L) ltac:(lra) (ieee_accurate Fm L HU HL) h N ltac:(lra) D1 HN HT) as (P' & rows & E & V & Ln & G). exists P', rows. split; [exact E|]. split; [eapply vclose_le; [exact D2|exact V]|]. split; [exact Ln|].
  intros k row Hk. destruct (G k row Hk) as [G1 G2]. split; (eapply vclose_le; [exact D3|]); assumption.
Qed.
(** the classes: position and velocity in, each component correct to a few units in the last place; 4-velocity; RK4; matrix inverse by LAPACK's elimination *)
Definition flow_reaches_accuracy (Kin c : R) (covE : fenv -> V4 -> Res M4) (fE : fenv -> R -> list R -> Res (list R)) (x v : V4) (X W : R -> V4) (T : R) : Prop :=
  forall eps, 0 < eps -> exists h0, 0 < h0 /\ forall h, 0 < h <= h0 -> exists bits, forall F L, usable F -> libm_ok F L -> tan_lib F L -> l_pow L 0 2 = Ok 0 -> (bits <= prec F)%Z ->
  forall x' v' N tb, near4 (Kin * uF F) x' x -> near4 (Kin * uF F) v' v -> INR N * h <= T -> forall k, (k <= N)%nat ->
  let e := mkfenv (ieee F L) (lu_inv (ieee F L)) in
  exists s, flowA e c (covE e) (fE e) x' v' tb h k = Ok s /\ near_motion eps (INR k * h) (X (INR k * h)) (W (INR k * h)) s.
Theorem flow_precise Kin c covE fE x v X W T : flow_rounded 0 Kin c covE fE x v X W T -> flow_reaches_accuracy Kin c covE fE x v X W T.
Proof.
  intros (K & r & HK & Hr & F) eps He. destruct (choice K r eps 4 HK Hr He ltac:(lia)) as (h0 & H0 & C). exists h0. split; [exact H0|]. intros h Hh. destruct (C h Hh) as (C1 & u0 & U0 & C2).
  destruct (uF_small u0 U0) as (p0 & _ & HP). exists p0. intros Fm L HU HL HTn HP0 Hb x' v' N tb Hx Hv HT k Hk e. assert (U := HP Fm Hb). destruct (C2 (uF Fm) ltac:(lra)) as (D1 & D2 & D3).
  destruct (F (uF Fm) e x' v' ltac:(lra) (ieee_lu_good Fm L HU HL HTn HP0) Hx Hv h N tb ltac:(lra) HT D1 k Hk) as (s & E & G1 & G2). exists s. split; [exact E|]. split; [lra|].
  intros i Hi. destruct (G2 i Hi). split; lra.
Qed.
Lemma nearest_lib_facts F : usable F -> libm_ok F (nearest_libm' F) /\ tan_lib F (nearest_libm' F) /\ l_pow (nearest_libm' F) 0 2 = Ok 0.
Proof.
  intros HU. assert (U0 : 0 < uF F) by apply Flocq.Core.Raux.bpow_gt_0. split; [|split].
  - destruct (nearest_libm_ok F HU) as [A1 A2 A3 A4 A5 A6 A7]. constructor; [exact A1|exact A2|exact A3|exact A4| |exact A6|exact A7]. intros x Hx. cbn [l_tan nearest_libm']. destruct (Req_EM_T (cos x) 0); [contradiction|]. apply A5. exact Hx.
  - intros x. cbn [l_tan nearest_libm']. destruct (Req_EM_T (cos x) 0) as [E|E].
    + split; [contradiction|]. intros _. exists (/ uF F). split; [reflexivity|]. rewrite Rabs_right by (apply Rle_ge, Rlt_le, Rinv_0_lt_compat; exact U0). right. field. lra.
    + split; [|contradiction]. intros _ _. apply rF_ulp4. exact HU.
  - change (Ok (rF F (0 * (0 * 1))) = Ok 0). rewrite Rmult_0_l. unfold rF. rewrite Flocq.Core.Generic_fmt.round_0 by apply Flocq.Core.Generic_fmt.valid_rnd_N. reflexivity.
Qed.
(** such formats and libraries exist, of every precision *)
Lemma precise_formats bits : exists F L, usable F /\ libm_ok F L /\ tan_lib F L /\ l_pow L 0 2 = Ok 0 /\ (bits <= prec F)%Z.
Proof.
  set (p := Z.max bits 11). exists (mkfmt p (- (2 * p)) (2 * p)). set (F := mkfmt p (- (2 * p)) (2 * p)). assert (HU : usable F) by (unfold usable, F; cbn [prec emin emax]; lia).
  exists (nearest_libm' F). split; [exact HU|]. destruct (nearest_lib_facts F HU) as (A & B & C). split; [exact A|]. split; [exact B|]. split; [exact C|]. unfold F. cbn [prec]. lia.
Qed.
Section API.
Variables (s : string) (prms : list R) (g : metricP) (a Q : R) (cov : R -> R -> M4) (out : R -> R -> Prop) (x1 x2 x3 u1 u2 u3 : R) (tl : bool) (order : nat) (w : R) (r1 : R).
Hypothesis HN : named_bh s prms g a Q.
Hypothesis HB : book s prms cov out.
Hypothesis Ho : out x1 x2.
Hypothesis Hor : In order [2; 4; 6; 8]%nat.
Hypothesis HR : released a Q r1 x1 x2 u3.
Theorem orbit_precise : exists guu E, inverse_of guu (cov x1 x2) /\ on_shell_future guu (mkQ4 (- E) u1 u2 u3) u1 u2 u3 tl /\
  forall q p, orbit_of g (mkQ4 0 x1 x2 x3) (mkQ4 (- E) u1 u2 u3) q p -> forall T, 0 < T -> reaches_accuracy s prms x1 x2 x3 u1 u2 u3 tl order w q p T.
Proof.
  destruct (orbit_rows s prms g a Q cov out x1 x2 x3 u1 u2 u3 tl order w 2 r1 HN HB Ho Hor (or_introl eq_refl) HR) as (guu & E & A & B & C). exists guu, E. split; [exact A|]. split; [exact B|].
  intros q p HO T HT. apply (rows_precise _ _ _ _ _ _ _ _ _ _ _ 2); [lia|]. exact (C q p HO T HT).
Qed.
End API.
Theorem kn_motion_of_precise c G Cc o Kin x v g : 0 < c -> 0 < G -> 0 < Cc -> 0 <= Kin -> MetricModel.kn_cov c G Cc o (si_position c x) = Ok g -> 0 < mnth g 0 0 -> sin (c2 x) <> 0 -> norm2 g (four_vel 0 v) < c ^ 2 ->
  exists w, timelike_lift c g v w /\ forall X W, motion_of (kn_f_vec c G Cc o) (si_position c x) (four_vel w v) X W ->
    forall T, 0 < T -> flow_reaches_accuracy Kin c (fun e => kn_covA e c G Cc o) (fun e => kn_fA e c G Cc o) x v X W T.
Proof.
  intros Hc HG HC HK Eg H0 Hs Hn. destruct (kn_motion_of_rows c G Cc o Hc HG HC 0 Kin x v g (Rle_refl 0) HK Eg H0 Hs Hn) as (w & A & B). exists w. split; [exact A|]. intros X W HM T HT. apply flow_precise. exact (B X W HM T HT).
Qed.
Theorem sch_motion_of_precise c G o Kin x v g : 0 < c -> 0 < G -> 0 <= Kin -> MetricModel.sch_cov c G o (si_position c x) = Ok g -> 0 < mnth g 0 0 -> sin (c2 x) <> 0 -> norm2 g (four_vel 0 v) < c ^ 2 ->
  exists w, timelike_lift c g v w /\ forall X W, motion_of (sch_f_vec c G o) (si_position c x) (four_vel w v) X W ->
    forall T, 0 < T -> flow_reaches_accuracy Kin c (fun e => sch_covA e c G o) (fun e => sch_fA e c G o) x v X W T.
Proof.
  intros Hc HG HK Eg H0 Hs Hn. destruct (sch_motion_of_rows c G o Hc HG 0 Kin x v g (Rle_refl 0) HK Eg H0 Hs Hn) as (w & A & B). exists w. split; [exact A|]. intros X W HM T HT. apply flow_precise. exact (B X W HM T HT).
Qed.
