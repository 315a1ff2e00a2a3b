(** C127: bound and scattered geodesics exist for all parameter values: named metrics of Geodesic, and the SI metric classes. *)
From Coq Require Import String Reals List ZArith Lra Lia Bool.
From Coquelicot Require Import Coquelicot.
From Verif Require Import Base Calc DualModel DualSpec DualProofs DualDiff GeoUtilsModel GeoUtilsSpec GeoUtilsProofs GeodesicModel GeodesicProofs CoordModel CoordProofs2 ConvModel ConvProofs
  FantasyModel FantasyProofs FantasyProofs2 FantasyProofs3 FantasyHam FantasyOrder FantasyGlobal FantasyGlobal2 FantasyGlobal3 FantasyShell FantasyCyclic FantasyCircular FloatModel FantasyCarter FloatPlane FloatGlobal ProgCont
  MetricModel MetricSpec MetricProofs MetricProofs2 MetricProofs3 MetricHamilton MetricHamilton2 MetricRK MetricCarter FloatInv Picard PicardProg.
From Verif Require Import ConvProofs2 MetricProofs6 MetricProofs7 MetricProofs8 MetricUnify FloatTrack FloatRK FloatRKG FloatMetricModel FloatMetric FloatMetric2 FloatMetric3 FloatMetric4 FloatMetric5 FloatMetric6 FloatMetric7 FloatMetric8 FloatVel FloatFlow.
From Verif Require Import Contin GlobalHole GlobalHole2.
Import ListNotations.
Import ListNotations.
Open Scope R_scope.

(** Radial motion never passes a radius where the radial potential is negative. *)
Theorem never_crosses g a Q q p T rho : hole g a Q -> independent_of g 0 -> independent_of g 3 -> geodesic_on g q p T -> 0 <= T ->
  radial a Q (c0 (p 0)) (c3 (p 0)) (carter a (q 0) (p 0) (2 * Ham g (q 0) (p 0))) (2 * Ham g (q 0) (p 0)) rho < 0 ->
  (rho < c1 (q 0) -> forall t, 0 <= t <= T -> rho < c1 (q t)) /\ (c1 (q 0) < rho -> forall t, 0 <= t <= T -> c1 (q t) < rho).
Proof.
  intros Hh I0 I3 HG HT HR.
  assert (C : forall t, 0 <= t <= T -> continuous (fun u => c1 (q u)) t). { intros t Ht. apply (ap_cont g a Q q p T Hh HG t 1 Ht). lia. }
  assert (N : forall t, 0 <= t <= T -> c1 (q t) <> rho).
  { intros t Ht E0. assert (R := ap_radial g a Q q p T Hh I0 I3 HG t Ht). rewrite E0 in R. assert (Z := Rle_0_sqr (DeltaS rho a Q * c1 (p t))). unfold Rsqr in Z. lra. }
  split; intros H0 t Ht.
  - exact (stays_above (fun u => c1 (q u)) rho T HT C N H0 t Ht).
  - exact (stays_below (fun u => c1 (q u)) rho T HT C N H0 t Ht).
Qed.

(** The metrics of the Geodesic classes by name, with spin and charge. *)
Inductive named_bh : string -> list R -> metricP -> R -> R -> Prop :=
| nb_sch prms : named_bh "Schwarzschild" prms schE 0 0
| nb_kerr a l : named_bh "Kerr" (a :: l) (kerrE a) a 0
| nb_kn a Q l : named_bh "KerrNewman" (a :: Q :: l) (kerrnewmanE a Q) a Q.
Lemma named_bh_spec s prms g a Q : named_bh s prms g a Q -> (exists call, resolve_metric (MName s) = Ok call /\ call prms = Ok g /\ call (resolve_params (MName s) prms) = Ok g) /\
  hole g a Q /\ independent_of g 0 /\ independent_of g 3.
Proof.
  intros H. inversion H; subst s prms g a Q.
  - split; [exists sch_call; repeat split|]. split; [exact hole_sch|]. split; intros i j Hi Hj; (destruct i as [|[|[|[|i]]]]; [| | | |lia]); (destruct j as [|[|[|[|j]]]]; [reflexivity..|lia]).
  - split; [exists kerr_call; repeat split|]. split; [apply hole_kerr|]. split; intros i j Hi Hj; (destruct i as [|[|[|[|i]]]]; [| | | |lia]); (destruct j as [|[|[|[|j]]]]; [reflexivity..|lia]).
  - split; [exists kerrnewman_call; repeat split|]. split; [apply hole_kn|]. split; intros i j Hi Hj; (destruct i as [|[|[|[|i]]]]; [| | | |lia]); (destruct j as [|[|[|[|j]]]]; [reflexivity..|lia]).
Qed.
(** Outside the radius r1, with the potential barrier at r1, off the axis. *)
Definition barred (g : metricP) (a Q r1 : R) (q0 p0 : V4) : Prop :=
  1 <= r1 < c1 q0 /\ 0 < r1 * r1 - 2 * r1 + a * a + Q * Q /\ 0 < c2 q0 < PI /\ c3 p0 <> 0 /\
  radial a Q (c0 p0) (c3 p0) (carter a q0 p0 (2 * Ham g q0 p0)) (2 * Ham g q0 p0) r1 < 0.
Theorem named_global s prms g a Q r1 q0 p0 : named_bh s prms g a Q -> barred g a Q r1 q0 p0 -> forall T, 0 <= T ->
  exists q p, q 0 = q0 /\ p 0 = p0 /\ geodesic_on g q p T /\ forall t, 0 <= t <= T -> r1 < c1 (q t) /\ 0 < c2 (q t) < PI.
Proof.
  intros H (B1 & B2 & B3 & B4 & B5) T HT. destruct (named_bh_spec _ _ _ _ _ H) as (_ & Hh & I0 & I3).
  assert (D : 0 < DeltaS r1 a Q) by (unfold DeltaS; exact B2). exact (hole_global g a Q q0 p0 r1 Hh I0 I3 B1 D B3 B4 B5 T HT).
Qed.
(** Geodesic's rows follow such a geodesic over any interval. *)
Theorem named_global_rows s prms g a Q r1 q0 p0 order w f n : named_bh s prms g a Q -> barred g a Q r1 q0 p0 ->
  integrator_of order (metricfun_of g) w = Ok f -> n = 2%nat \/ (order = 4 /\ n = 4)%nat -> forall T, 0 < T ->
  exists q p, q 0 = q0 /\ p 0 = p0 /\ geodesic_on g q p T /\ (forall t, 0 <= t <= T -> r1 < c1 (q t)) /\
  exists C N0, (0 < N0)%nat /\ forall N tl rtol atol suppress, (N0 <= N)%nat ->
  exists rows, calculate_trajectory g q0 p0 tl false (mkkw N (T / INR N) rtol atol order w suppress) = Ok (seq 0 N, rows) /\ length rows = N /\
  forall k row, nth_error rows k = Some row ->
    (forall i, (i < 4)%nat -> Rabs (q4nth (fst row) i - q4nth (q (INR (S k) * (T / INR N))) i) <= C * (T / INR N) ^ n /\
                              Rabs (q4nth (snd row) i - q4nth (p (INR (S k) * (T / INR N))) i) <= C * (T / INR N) ^ n) /\
    r1 - C * (T / INR N) ^ n < c1 (fst row).
Proof.
  intros H HB Hf Hn T HT. destruct (named_global _ _ _ _ _ _ _ _ H HB T ltac:(lra)) as (q & p & E0 & E1 & HG & HR).
  exists q, p. split; [exact E0|]. split; [exact E1|]. split; [exact HG|]. split; [intros t Ht; apply (HR t Ht)|].
  destruct (named_bh_spec _ _ _ _ _ H) as (_ & Hh & _ & _). assert (W : well_formed g) by apply Hh. assert (Sy : symmetric_program g) by apply Hh.
  destruct (trajectory_converges order g w f n q p T Hf Hn W Sy HT HG) as (C & N0 & HN & K). rewrite E0, E1 in K.
  exists C, N0. split; [exact HN|]. intros N tl rtol atol suppress HNN. destruct (K N tl rtol atol suppress HNN) as (rows & E & Lr & B). exists rows. split; [exact E|]. split; [exact Lr|].
  intros k row Hk. split; [exact (B k row Hk)|]. destruct (B k row Hk 1%nat ltac:(lia)) as [B1 _]. cbn [q4nth] in B1.
  assert (kN : (k < N)%nat) by (rewrite <- Lr; apply nth_error_Some; rewrite Hk; discriminate). assert (PN : 0 < INR N) by (apply lt_0_INR; lia).
  assert (Ph : 0 < T / INR N) by (apply Rdiv_lt_0_compat; assumption).
  assert (Ht : 0 <= INR (S k) * (T / INR N) <= T). { apply (step_time T N); [exact Ph|lia| |exact kN]. apply Req_le. field. lra. }
  assert (R := proj1 (HR _ Ht)). apply Rabs_le_between in B1. lra.
Qed.
Theorem named_global_rounded s prms g a Q r1 q0 p0 order w f n : named_bh s prms g a Q -> barred g a Q r1 q0 p0 ->
  integrator_of order (metricfun_of g) w = Ok f -> n = 2%nat \/ (order = 4 /\ n = 4)%nat -> forall T, 0 < T ->
  exists K r, 0 <= K /\ 0 < r /\ forall u A, 0 <= u -> accurate u A -> forall h N e0 q1 p1, 0 < h <= r -> (0 < N)%nat -> INR N * h <= T ->
  (forall i, (i < 4)%nat -> Rabs (q4nth q1 i - q4nth q0 i) <= e0 /\ Rabs (q4nth p1 i - q4nth p0 i) <= e0) -> e0 + u / h <= r ->
  exists rows, trajectoryA A g q1 p1 false N h order w = Ok rows /\ length rows = N /\
  forall row, In row rows -> r1 - K * (e0 + h ^ n + u / h) < c1 (fst row).
Proof.
  intros H HB Hf Hn T HT. destruct (named_global _ _ _ _ _ _ _ _ H HB T ltac:(lra)) as (q & p & E0 & E1 & HG & HR).
  destruct (named_bh_spec _ _ _ _ _ H) as (_ & Hh & _ & _). assert (W : well_formed g) by apply Hh. assert (Sy : symmetric_program g) by apply Hh.
  destruct (trajectory_rounded order g w f n q p T Hf Hn W Sy HT HG) as (K & r & HK & Pr & KK). rewrite E0, E1 in KK.
  exists K, r. split; [exact HK|]. split; [exact Pr|]. intros u A Hu HA h N e0 q1 p1 Hh1 HN HNT H0 He.
  destruct (KK u A Hu HA h N e0 q1 p1 Hh1 HN HNT H0 He) as (rows & E & Lr & B). exists rows. split; [exact E|]. split; [exact Lr|].
  intros row Hin. apply In_nth_error in Hin as (k & Hk). destruct (B k row Hk 1%nat ltac:(lia)) as [B1 _]. cbn [q4nth] in B1.
  assert (kN : (k < N)%nat) by (rewrite <- Lr; apply nth_error_Some; rewrite Hk; discriminate).
  assert (Ht := step_time T N h k ltac:(lra) HN HNT kN). assert (R := proj1 (HR _ Ht)). apply Rabs_le_between in B1. lra.
Qed.

(** SI *)
Definition radial_si (c rs al : R) (x : V4) (h : M4) (w : V4) (r : R) : R :=
  let P := (r ^ 2 + al ^ 2) * FloatInv.low 0 h w / c + al * FloatInv.low 3 h w in
  P ^ 2 - dl_of rs al r * (carter_si c al x h w + ConvProofs2.norm2 h w * r ^ 2).
(** rs: Schwarzschild radius of the mass, al: spin length, r1: radius of the barrier *)
Definition barred_si (c rs al r1 : R) (x : V4) (h : M4) (w : V4) : Prop :=
  rs / 2 <= r1 < c1 x /\ 0 < dl_of rs al r1 /\ 0 < c2 x < PI /\ FloatInv.low 3 h w <> 0 /\ radial_si c rs al x h w r1 < 0.

Lemma hamilton_velocity g q p t : hamilton g q p t -> has_velocity q t (mv (metric_meaning g (q4nth (q t))) (p t)).
Proof. intros H mu Hm. apply (H mu Hm). Qed.

Section SI.
Variables (c G Cc : R) (o : mobj).
Hypothesis Hc : 0 < c.
Hypothesis HG : 0 < G.
Hypothesis HC : 0 < Cc.
Hypothesis HM : 0 < q_val (mo_M o).
Hypothesis Hsys : mo_sys o = BL.
Hypothesis Hspin : valid_spin o.
Hypothesis Hq : q_val (mo_q o) = 0.
Let a := q_val (mo_a o).
Let g := kerrE a.
Let m := grav_radius c G o.
Lemma m_pos : 0 < m.
Proof. unfold m, grav_radius. apply Rdiv_lt_0_compat; [apply Rmult_lt_0_compat; assumption|apply pow_lt; exact Hc]. Qed.
Lemma M_nz : q_val (mo_M o) <> 0. Proof. lra. Qed.
Lemma barred_unit x h w r1 : MetricModel.kn_cov c G Cc o x = Ok h -> barred_si c (sch_rad c G o) (al_of c G o) r1 x h w ->
  chart a (unit_point c G o x) /\ barred g a 0 (r1 / m) (unit_point c G o x) (unit_momentum c G Cc o x w).
Proof.
  intros E (B1 & B2 & B3 & B4 & B5). assert (M := m_pos). assert (RS : sch_rad c G o / 2 = m) by (rewrite (si_rad c G o Hc); fold m; field). rewrite RS in B1.
  assert (Hk : hole g a 0) by apply hole_kerr. assert (Ik : is_kn g a 0) by apply Hk.
  assert (DL : forall r, dl_of (sch_rad c G o) (al_of c G o) r = m * m * DeltaS (r / m) a 0).
  { intros r. rewrite (si_rad c G o Hc), (si_al c G o). fold m a. unfold dl_of, DeltaS. field. lra. }
  assert (U1 : c1 (unit_point c G o x) = c1 x / m) by reflexivity. assert (U2 : c2 (unit_point c G o x) = c2 x) by apply up_ang.
  assert (R1 : 1 <= r1 / m < c1 x / m). { split; [apply Rmult_le_reg_r with m|apply Rmult_lt_reg_r with m]; try exact M; field_simplify; lra. }
  rewrite DL in B2. assert (D1 : 0 < DeltaS (r1 / m) a 0) by (apply Rmult_lt_reg_l with (m * m); [nra|lra]).
  assert (DM := delta_mono a 0 (r1 / m) (c1 x / m) ltac:(lra)). assert (SG := sigma_ge (c1 x / m) (c2 x) a). assert (HS0 : 0 < sin (c2 x)) by (apply sin_gt_0; apply B3).
  assert (Ch : chart a (unit_point c G o x)). { unfold chart. rewrite U1, U2. split; [nra|split; lra]. }
  split; [exact Ch|]. unfold barred. rewrite U1, U2. split; [exact R1|]. split; [exact D1|]. split; [exact B3|].
  set (kap := - (m * m)). assert (Kz : kap <> 0) by (unfold kap; nra).
  assert (P0 := um_nth c G Cc o x w h 0 E ltac:(lia)). assert (P3 := um_nth c G Cc o x w h 3 E ltac:(lia)). unfold si in P0, P3. cbn [q4nth c0 c1 c2 c3] in P0, P3. fold m kap in P0, P3.
  split. { rewrite P3. apply Rmult_integral_contrapositive_currified; [|exact B4]. unfold Rdiv. rewrite Rmult_1_l. apply Rinv_neq_0_compat. exact Kz. }
  assert (UC := um_carter c G Cc o g Hc HG M_nz Hsys Hspin Ik x w h E Ch). fold a m kap in UC. rewrite UC.
  rewrite (um_ham c G Cc o g Hc HG M_nz Hsys Hspin Ik x w h E Ch). fold m kap. rewrite P0, P3.
  unfold radial_si in B5. cbv zeta in B5. rewrite DL, (si_al c G o) in B5. rewrite (si_al c G o). fold m a in B5. fold m a. unfold radial.
  revert B5. generalize (FloatInv.low 0 h w) (FloatInv.low 3 h w) (carter_si c (m * a) x h w) (ConvProofs2.norm2 h w) (DeltaS (r1 / m) a 0). intros l0 l3 K N D B5.
  apply Rmult_lt_reg_l with (m * m * (kap * kap)); [assert (MM : 0 < m * m) by (apply Rmult_lt_0_compat; exact M); unfold kap; rewrite Rmult_opp_opp; apply Rmult_lt_0_compat; [exact MM|apply Rmult_lt_0_compat; exact MM]|]. rewrite Rmult_0_r. eapply Rle_lt_trans; [apply Req_le|exact B5]. unfold kap. field. split; lra.
Qed.
Theorem kn_global x h w r1 : MetricModel.kn_cov c G Cc o x = Ok h -> barred_si c (sch_rad c G o) (al_of c G o) r1 x h w -> forall T, 0 <= T ->
  exists X W, X 0 = x /\ W 0 = w /\ forall t, 0 <= t <= T -> locally t (moves (kn_f_vec c G Cc o) X W) /\ r1 < c1 (X t) /\ 0 < c2 (X t) < PI.
Proof.
  intros E HB T HT. destruct (barred_unit x h w r1 E HB) as (Ch & B). assert (M := m_pos).
  assert (Hk : hole g a 0) by apply hole_kerr. assert (Ik : is_kn g a 0) by apply Hk.
  destruct (named_global _ _ _ _ _ _ _ _ (nb_kerr a []) B T HT) as (q & p & E0 & E1 & HGd & HR).
  exists (fun u => si_point c G o (q u)), (fun u => si_velocity c G o g (q u) (p u)). cbv beta. rewrite E0, E1.
  split; [apply (point_unit c G o Hc HG M_nz)|]. split; [apply (velocity_unit c G Cc o g Hc HG M_nz Hsys Hspin Ik x w Ch)|].
  intros t Ht. destruct (HGd t Ht) as [D HL]. destruct (HR t Ht) as [R1 R2].
  assert (Ct : chart a (q t)). { unfold chart. destruct (ap_dom g a 0 q p T Hk HGd t Ht) as (A1 & A2 & A3). split; [exact A1|split; assumption]. }
  split; [|split].
  - assert (V := hamilton_velocity _ _ _ _ (locally_singleton _ _ HL)). assert (CO := chart_open a q t _ V Ct).
    generalize (filter_and _ _ HL CO). apply filter_imp. intros u [Hu Cu]. apply (hole_iff c G Cc o g Hc HG HC M_nz Hsys Hspin Ik q p u Hq Cu). exact Hu.
  - change (r1 < m * c1 (q t)). apply Rmult_lt_compat_l with (r := m) in R1; [|exact M]. replace (m * (r1 / m)) with r1 in R1 by (field; lra). exact R1.
  - change (0 < 1 * c2 (q t) < PI). lra.
Qed.
(** and no motion of the class passes a barrier radius *)
Theorem kn_never_crosses X W h T rho : 0 <= T -> (forall t, 0 <= t <= T -> locally t (moves (kn_f_vec c G Cc o) X W)) -> MetricModel.kn_cov c G Cc o (X 0) = Ok h ->
  radial_si c (sch_rad c G o) (al_of c G o) (X 0) h (W 0) rho < 0 ->
  (rho < c1 (X 0) -> forall t, 0 <= t <= T -> rho < c1 (X t)) /\ (c1 (X 0) < rho -> forall t, 0 <= t <= T -> c1 (X t) < rho).
Proof.
  intros HT HL E HR. assert (M := m_pos). assert (Hk : hole g a 0) by apply hole_kerr. assert (Ik : is_kn g a 0) by apply Hk.
  destruct (on_unit c G Cc o g Hc HG HC M_nz Hsys Hspin Ik X W T Hq HL) as [HGd Ch].
  destruct (named_bh_spec _ _ _ _ _ (nb_kerr a [])) as (_ & _ & I0 & I3).
  destruct (never_crosses g a 0 _ _ T (rho / m) Hk I0 I3 HGd HT) as [A B].
  - set (kap := - (m * m)). assert (Kz : kap <> 0) by (unfold kap; nra). assert (C0 := Ch 0 ltac:(lra)).
    assert (P0 := um_nth c G Cc o (X 0) (W 0) h 0 E ltac:(lia)). assert (P3 := um_nth c G Cc o (X 0) (W 0) h 3 E ltac:(lia)). unfold si in P0, P3. cbn [q4nth c0 c1 c2 c3] in P0, P3. fold m kap in P0, P3.
    assert (UC := um_carter c G Cc o g Hc HG M_nz Hsys Hspin Ik (X 0) (W 0) h E C0). fold a m kap in UC. rewrite UC.
    rewrite (um_ham c G Cc o g Hc HG M_nz Hsys Hspin Ik (X 0) (W 0) h E C0). fold m kap. rewrite P0, P3.
    assert (DL : forall r, dl_of (sch_rad c G o) (al_of c G o) r = m * m * DeltaS (r / m) a 0).
    { intros r. rewrite (si_rad c G o Hc), (si_al c G o). fold m a. unfold dl_of, DeltaS. field. lra. }
    unfold radial_si in HR. cbv zeta in HR. rewrite DL, (si_al c G o) in HR. rewrite (si_al c G o). fold m a in HR. fold m a. unfold radial.
    revert HR. generalize (FloatInv.low 0 h (W 0)) (FloatInv.low 3 h (W 0)) (carter_si c (m * a) (X 0) h (W 0)) (ConvProofs2.norm2 h (W 0)) (DeltaS (rho / m) a 0). intros l0 l3 K N D HR.
    apply Rmult_lt_reg_l with (m * m * (kap * kap)); [assert (MM : 0 < m * m) by (apply Rmult_lt_0_compat; exact M); unfold kap; rewrite Rmult_opp_opp; apply Rmult_lt_0_compat; [exact MM|apply Rmult_lt_0_compat; exact MM]|]. rewrite Rmult_0_r. eapply Rle_lt_trans; [apply Req_le|exact HR]. unfold kap. field. split; lra.
  - assert (U : forall y, c1 (unit_point c G o y) = c1 y / m) by reflexivity. 
    assert (P : forall y z, y / m < z / m -> y < z). { intros y z H. apply Rmult_lt_compat_r with (r := m) in H; [|exact M]. unfold Rdiv in H. rewrite !Rmult_assoc, Rinv_l, !Rmult_1_r in H by lra. exact H. }
    assert (P' : forall y z, y < z -> y / m < z / m). { intros y z H. apply Rmult_lt_compat_r; [apply Rinv_0_lt_compat; exact M|exact H]. }
    split; intros H0 t Ht; apply P.
    + rewrite <- U. apply A; [rewrite U; apply P'; exact H0|exact Ht].
    + rewrite <- (U (X t)). apply B; [rewrite U; apply P'; exact H0|exact Ht].
Qed.
End SI.

Theorem sch_global c G o x h w r1 : 0 < c -> 0 < G -> 0 < q_val (mo_M o) -> mo_sys o = Sph ->
  MetricModel.sch_cov c G o x = Ok h -> barred_si c (sch_rad c G o) 0 r1 x h w -> forall T, 0 <= T ->
  exists X W, X 0 = x /\ W 0 = w /\ forall t, 0 <= t <= T -> locally t (moves (sch_f_vec c G o) X W) /\ r1 < c1 (X t) /\ 0 < c2 (X t) < PI.
Proof.
  intros Hc HG HM S E HB T HT. rewrite <- (sch_to_kn c G o x S) in E.
  assert (A : al_of c G (as_kn o) = 0) by (unfold al_of, as_kn; cbn [mo_a q_val]; ring).
  assert (HB' : barred_si c (sch_rad c G (as_kn o)) (al_of c G (as_kn o)) r1 x h w) by (rewrite A; exact HB).
  destruct (kn_global c G 1 (as_kn o) Hc HG Rlt_0_1 HM eq_refl (as_kn_spin o) eq_refl x h w r1 E HB' T HT) as (X & W & E0 & E1 & H).
  exists X, W. split; [exact E0|]. split; [exact E1|]. intros t Ht. destruct (H t Ht) as [H1 H2]. split; [|exact H2].
  generalize H1. apply filter_imp. intros u Hu. apply (sch_moves c G o X W u Hc HG S). exact Hu.
Qed.
Theorem sch_never_crosses c G o X W h T rho : 0 < c -> 0 < G -> 0 < q_val (mo_M o) -> mo_sys o = Sph -> 0 <= T ->
  (forall t, 0 <= t <= T -> locally t (moves (sch_f_vec c G o) X W)) -> MetricModel.sch_cov c G o (X 0) = Ok h ->
  radial_si c (sch_rad c G o) 0 (X 0) h (W 0) rho < 0 ->
  (rho < c1 (X 0) -> forall t, 0 <= t <= T -> rho < c1 (X t)) /\ (c1 (X 0) < rho -> forall t, 0 <= t <= T -> c1 (X t) < rho).
Proof.
  intros Hc HG HM S HT HL E HR. rewrite <- (sch_to_kn c G o (X 0) S) in E.
  assert (A : al_of c G (as_kn o) = 0) by (unfold al_of, as_kn; cbn [mo_a q_val]; ring).
  assert (HR' : radial_si c (sch_rad c G (as_kn o)) (al_of c G (as_kn o)) (X 0) h (W 0) rho < 0) by (rewrite A; exact HR).
  apply (kn_never_crosses c G 1 (as_kn o) Hc HG Rlt_0_1 HM eq_refl (as_kn_spin o) eq_refl X W h T rho HT); [|exact E|exact HR'].
  intros t Ht. generalize (HL t Ht). apply filter_imp. intros u Hu. apply (sch_moves c G o X W u Hc HG S). exact Hu.
Qed.
(** the whole public flow: position and spatial velocity in, RK4 rows out, over any interval *)
Theorem kn_global_flow K Kin c G Cc o x v g w r1 : 0 <= K -> 0 <= Kin -> 0 < c -> 0 < G -> 0 < Cc -> 0 < q_val (mo_M o) -> q_val (mo_q o) = 0 ->
  MetricModel.kn_cov c G Cc o (si_position c x) = Ok g -> 0 < mnth g 0 0 -> norm2 g (four_vel 0 v) < c ^ 2 -> timelike_lift c g v w ->
  barred_si c (sch_rad c G o) (al_of c G o) r1 (si_position c x) g (four_vel w v) -> forall T, 0 < T ->
  exists X W, X 0 = si_position c x /\ W 0 = four_vel w v /\ (forall t, 0 <= t <= T -> locally t (moves (kn_f_vec c G Cc o) X W) /\ r1 < c1 (X t) /\ 0 < c2 (X t) < PI) /\
  flow_rounded K Kin c (fun e => kn_covA e c G Cc o) (fun e => kn_fA e c G Cc o) x v X W T.
Proof.
  intros HK HKin Hc HG HC HM Hq Eg H0 Hn Hw HB T HT. destruct (kn_cov_dom _ _ _ _ _ _ Eg) as (S & Sp & _).
  assert (Hs : sin (c2 x) <> 0) by (apply Rgt_not_eq, sin_gt_0; apply HB).
  destruct (kn_flow K Kin c G Cc o x v g HK HKin Hc HG HC Eg H0 Hs Hn) as (w' & Hw' & _ & F).
  assert (w' = w) as ->. { destruct Hw as (A & _), Hw' as (B & _). rewrite A in B. apply Ok_inj in B. symmetry. exact B. }
  destruct (kn_global c G Cc o Hc HG HC HM S Sp Hq _ g _ r1 Eg HB T ltac:(lra)) as (X & W & E0 & E1 & H).
  exists X, W. split; [exact E0|]. split; [exact E1|]. split; [exact H|]. apply F; [exact HT|exact E0|exact E1|]. intros t Ht. apply (H t Ht).
Qed.
Theorem sch_global_flow K Kin c G o x v g w r1 : 0 <= K -> 0 <= Kin -> 0 < c -> 0 < G -> 0 < q_val (mo_M o) ->
  MetricModel.sch_cov c G o (si_position c x) = Ok g -> 0 < mnth g 0 0 -> norm2 g (four_vel 0 v) < c ^ 2 -> timelike_lift c g v w ->
  barred_si c (sch_rad c G o) 0 r1 (si_position c x) g (four_vel w v) -> forall T, 0 < T ->
  exists X W, X 0 = si_position c x /\ W 0 = four_vel w v /\ (forall t, 0 <= t <= T -> locally t (moves (sch_f_vec c G o) X W) /\ r1 < c1 (X t) /\ 0 < c2 (X t) < PI) /\
  flow_rounded K Kin c (fun e => sch_covA e c G o) (fun e => sch_fA e c G o) x v X W T.
Proof.
  intros HK HKin Hc HG HM Eg H0 Hn Hw HB T HT.
  assert (S : mo_sys o = Sph). { assert (E := Eg). rewrite <- (xz_pos (si_position c x)) in E. apply sch_cov_inv in E. apply E. }
  assert (Hs : sin (c2 x) <> 0) by (apply Rgt_not_eq, sin_gt_0; apply HB).
  destruct (sch_flow K Kin c G o x v g HK HKin Hc HG Eg H0 Hs Hn) as (w' & Hw' & _ & F).
  assert (w' = w) as ->. { destruct Hw as (A & _), Hw' as (B & _). rewrite A in B. apply Ok_inj in B. symmetry. exact B. }
  destruct (sch_global c G o _ g _ r1 Hc HG HM S Eg HB T ltac:(lra)) as (X & W & E0 & E1 & H).
  exists X, W. split; [exact E0|]. split; [exact E1|]. split; [exact H|]. apply F; [exact HT|exact E0|exact E1|]. intros t Ht. apply (H t Ht).
Qed.
