(** C105: the black holes. [si] rescales (t, r, theta, phi) from units G = c = M = 1 to SI. *)
From Coq Require Import String Reals List ZArith Lra Lia Bool.
From Coquelicot Require Import Coquelicot.
From Verif Require Import Base Calc DualModel DualSpec DualProofs DualDiff GeoUtilsModel GeoUtilsSpec GeoUtilsProofs GeodesicModel GeodesicProofs CoordModel CoordProofs2 ConvModel ConvProofs
  FantasyModel FantasyProofs FantasyProofs2 FantasyProofs3 FantasyHam FantasyOrder FantasyGlobal3 FantasyCircular
  MetricModel MetricSpec MetricProofs MetricProofs2 MetricProofs3 MetricProofs4 MetricProofs5 MetricProofs6 MetricProofs7 MetricUnify MetricHamilton.
Import ListNotations.
Open Scope R_scope.

(** gravitational radius G M / c^2 of the object *)
Definition grav_radius (c G : R) (o : mobj) : R := G * q_val (mo_M o) / c ^ 2.
(** factors (G M / c^3, G M / c^2, 1, 1) *)
Definition si (c G : R) (o : mobj) : V4 := mkQ4 (grav_radius c G o / c) (grav_radius c G o) 1 1.
(** position in SI units; velocity dx/dlambda in SI units belonging to momentum p at q *)
Definition si_point (c G : R) (o : mobj) (q : V4) : V4 := scaled (si c G o) q.
Definition si_velocity (c G : R) (o : mobj) (g : metricP) (q p : V4) : V4 := scaled (si c G o) (mv (metric_meaning g (q4nth q)) p).
(** X with velocity W obeys the equations of motion f_vec at t *)
Definition moves (f_vec : V4 -> V4 -> Res (V4 * V4)) (X W : R -> V4) (t : R) : Prop :=
  exists acc, has_velocity X t (W t) /\ f_vec (X t) (W t) = Ok (W t, acc) /\ has_velocity W t acc.
(** outside the singularities of the chart *)
Definition chart (a : R) (x : V4) : Prop := SigmaS (c1 x) (c2 x) a <> 0 /\ DeltaS (c1 x) a 0 <> 0 /\ sin (c2 x) <> 0.

Lemma loc_nz (f : R -> R) t l : is_derive f t l -> f t <> 0 -> locally t (fun u => f u <> 0).
Proof.
  intros D H. apply D_continuous in D. apply (D (fun y => y <> 0)).
  exists (mkposreal (Rabs (f t)) (Rabs_pos_lt _ H)). intros y Hy E. subst y. unfold ball in Hy; cbn in Hy. unfold AbsRing_ball, abs, minus, plus, opp in Hy; cbn in Hy.
  rewrite Rplus_0_l, Rabs_Ropp in Hy. lra.
Qed.
Lemma chart_open a y t v : has_velocity y t v -> chart a (y t) -> locally t (fun u => chart a (y u)).
Proof.
  intros Hv (H1 & H2 & H3). assert (Dr := Hv 1%nat ltac:(lia)). assert (Dth := Hv 2%nat ltac:(lia)). cbn [q4nth] in Dr, Dth.
  repeat apply filter_and.
  - eapply (loc_nz (fun u => SigmaS (c1 (y u)) (c2 (y u)) a)); [|exact H1]. unfold SigmaS.
    apply D_plus; [apply D_mult; exact Dr|]. apply D_mult; [apply D_mult; [apply D_const|apply D_const]|]. apply D_mult; apply D_cos; exact Dth.
  - eapply (loc_nz (fun u => DeltaS (c1 (y u)) a 0)); [|exact H2]. unfold DeltaS.
    apply D_plus; [|apply D_const]. apply D_plus; [|apply D_const]. apply D_minus; [apply D_mult; exact Dr|apply D_scal; exact Dr].
  - eapply (loc_nz (fun u => sin (c2 (y u)))); [|exact H3]. apply D_sin. exact Dth.
Qed.

Lemma q4_ext (v w : V4) : (forall k, (k < 4)%nat -> q4nth v k = q4nth w k) -> v = w.
Proof. intros H. apply Q4_eq; [exact (H 0%nat ltac:(lia))|exact (H 1%nat ltac:(lia))|exact (H 2%nat ltac:(lia))|exact (H 3%nat ltac:(lia))]. Qed.

Section Hole.
Variables (c G Cc : R) (o : mobj) (g : metricP).
Hypothesis Hc : 0 < c.
Hypothesis HG : 0 < G.
Hypothesis HC : 0 < Cc.
Hypothesis HM : q_val (mo_M o) <> 0.
Hypothesis Hsys : mo_sys o = BL.
Hypothesis Hspin : valid_spin o.
Hypothesis Hg : is_kn g (q_val (mo_a o)) 0.
Let a := q_val (mo_a o).
Let m := grav_radius c G o.
Let kap := - (m * m).
Lemma m_nz : m <> 0.
Proof. unfold m, grav_radius. assert (c ^ 2 <> 0) by (apply pow_nonzero; lra). unfold Rdiv. repeat apply Rmult_integral_contrapositive_currified; [lra|exact HM|apply Rinv_neq_0_compat; assumption]. Qed.
Lemma kap_nz : kap <> 0.
Proof. unfold kap. apply Ropp_neq_0_compat. apply Rmult_integral_contrapositive_currified; exact m_nz. Qed.
Lemma si_nz k : (k < 4)%nat -> q4nth (si c G o) k <> 0.
Proof.
  intros K. assert (M := m_nz). fold m. nat4 k K; unfold si; cbn [q4nth c0 c1 c2 c3]; fold m; try exact M; try lra.
  unfold Rdiv. apply Rmult_integral_contrapositive_currified; [exact M|apply Rinv_neq_0_compat; lra].
Qed.
Lemma si_al : al_of c G o = m * a.
Proof. unfold al_of, m, grav_radius, a. ring. Qed.
Lemma si_rad : sch_rad c G o = 2 * m.
Proof. unfold sch_rad, schwarzschild_radius, m, grav_radius. cbn [prim]. field. lra. Qed.
Lemma si_sg x : sg_of (al_of c G o) (c1 (si_point c G o x)) (c2 (si_point c G o x)) = m * m * SigmaS (c1 x) (c2 x) a.
Proof. rewrite si_al. unfold sg_of, SigmaS, si_point, scaled, si, q4tab. cbn [q4nth c0 c1 c2 c3]. fold m. rewrite Rmult_1_l. ring. Qed.
Lemma si_dl x : dl_of (sch_rad c G o) (al_of c G o) (c1 (si_point c G o x)) = m * m * DeltaS (c1 x) a 0.
Proof. rewrite si_al, si_rad. unfold dl_of, DeltaS, si_point, scaled, si, q4tab. cbn [q4nth c0 c1 c2 c3]. fold m. ring. Qed.
Lemma chart_dom x : chart a x <-> bl_dom c G o (si_point c G o x) /\ sin (c2 (si_point c G o x)) <> 0.
Proof.
  assert (M := m_nz). assert (E2 : c2 (si_point c G o x) = c2 x) by (unfold si_point, scaled, si, q4tab; cbn [q4nth c0 c1 c2 c3]; ring).
  unfold chart, bl_dom. rewrite si_sg, si_dl, E2. split.
  - intros (H1 & H2 & H3). split; [|exact H3]. split; [exact Hsys|]. split; [exact Hspin|]. split; repeat first [assumption|apply Rmult_integral_contrapositive_currified].
  - intros [(_ & _ & H1 & H2) H3]. split; [|split; [|exact H3]]; intros E; [apply H1|apply H2]; rewrite E; ring.
Qed.
Lemma kn_match x i j : chart a x -> (i < 4)%nat -> (j < 4)%nat ->
  mnth (MetricModel.kn_g c (al_of c G o) (sg_of (al_of c G o) (c1 (si_point c G o x)) (c2 (si_point c G o x))) (dl_of (sch_rad c G o) (al_of c G o) (c1 (si_point c G o x))) (c1 (si_point c G o x)) (c2 (si_point c G o x))) i j
   = kap * mnth (GeoUtilsSpec.kn_cov a 0 (c1 x) (c2 x)) i j / (q4nth (si c G o) i * q4nth (si c G o) j).
Proof.
  intros (H1 & H2 & H3) Hi Hj. assert (M := m_nz). rewrite si_sg, si_dl, si_al. set (S := SigmaS (c1 x) (c2 x) a) in *. set (D := DeltaS (c1 x) a 0) in *.
  assert (E1 : c1 (si_point c G o x) = m * c1 x) by reflexivity.
  assert (E2 : c2 (si_point c G o x) = c2 x) by (unfold si_point, scaled, si, q4tab; cbn [q4nth c0 c1 c2 c3]; ring).
  rewrite E1, E2. unfold MetricModel.kn_g, GeoUtilsSpec.kn_cov. fold S D. 
  assert (ES : S = c1 x * c1 x + a * a - a * a * (sin (c2 x) * sin (c2 x))).
  { unfold S, SigmaS. rewrite sin_cos_sq. ring. }
  assert (ED : D = c1 x * c1 x - 2 * c1 x + a * a) by (unfold D, DeltaS; ring).
  set (r := c1 x) in *. set (sn := sin (c2 x)) in *. unfold kap, si. fold m.
  nat4 i Hi; (nat4 j Hj); unfold mnth; cbn [q4nth c0 c1 c2 c3]; try (field; repeat split; first [exact M|exact H1|exact H2|lra]).
  - rewrite ED. transitivity (c ^ 2 * (r * r - 2 * r + a * a - a * a * (sn * sn)) / S); [field; repeat split; assumption|]. replace (r * r - 2 * r + a * a - a * a * (sn * sn)) with (S - 2 * r) by (rewrite ES; ring). field. repeat split; first [exact M|exact H1|lra].
  - rewrite ED. field. repeat split; first [exact M|exact H1|lra].
  - rewrite ED. field. repeat split; first [exact M|exact H1|lra].
  - rewrite ED. transitivity (- (m * m) * (sn * sn * ((r * r + a * a) * (r * r + a * a - a * a * (sn * sn)) + 2 * r * (a * a) * (sn * sn)) / S)); [field; repeat split; assumption|]. rewrite <- ES. field. repeat split; first [exact M|exact H1|lra].
Qed.
Lemma kn_con_entry x b d : chart a x -> (b < 4)%nat -> (d < 4)%nat -> meaning (q4nth x) (mnth g b d) = mnth (kn_con a 0 (c1 x) (c2 x)) b d.
Proof.
  intros (H1 & H2 & H3) Hb Hd. destruct Hg as (_ & _ & H). destruct x as [t r th ph]. cbn [c1 c2] in *. destruct (H t r th ph H1 H2 H3) as [_ E]. fold a in E. rewrite <- E.
  change (mk4 t r th ph) with (mkQ4 t r th ph). unfold metric_meaning, mnth. nat4 b Hb; (nat4 d Hd); reflexivity.
Qed.
Lemma hole_same : same_metric g (MetricModel.kn_cov c G Cc o) (si c G o) kap (chart a).
Proof.
  split; [|intros y t v; apply chart_open]. intros x Hx. assert (Hx' := Hx). destruct Hx' as (H1 & H2 & H3).
  split. { destruct Hg as (_ & _ & H). destruct x as [t r th ph]. apply (H t r th ph); assumption. }
  destruct (proj1 (chart_dom x) Hx) as [D Hs]. change (scaled (si c G o) x) with (si_point c G o x). eexists. split; [apply kn_cov_eq; exact D|].
  assert (M := m_nz). split.
  - intros i j Hi Hj. rewrite !kn_match by assumption. rewrite (Rmult_comm (q4nth (si c G o) j)). f_equal. f_equal. unfold GeoUtilsSpec.kn_cov. nat4 i Hi; (nat4 j Hj); reflexivity.
  - intros i j Hi Hj. transitivity (q4nth (si c G o) j / q4nth (si c G o) i * mnth (mm (GeoUtilsSpec.kn_cov a 0 (c1 x) (c2 x)) (kn_con a 0 (c1 x) (c2 x))) i j).
    + transitivity (sum4 (fun b => q4nth (si c G o) j / q4nth (si c G o) i * (mnth (GeoUtilsSpec.kn_cov a 0 (c1 x) (c2 x)) i b * mnth (kn_con a 0 (c1 x) (c2 x)) b j))).
      * apply sum4_ext. intros b Hb. rewrite kn_match by assumption. unfold contraS. rewrite (kn_con_entry x b j Hx Hb Hj). field. repeat split; first [exact kap_nz|apply si_nz; assumption].
      * rewrite mm_entry by assumption. unfold sum4. ring.
    + rewrite (proj2 (kn_con_cov a 0 (c1 x) (c2 x) H1 H2 H3)). unfold id4. rewrite mnth_tab by assumption. unfold delta4. destruct (Nat.eqb_spec i j) as [-> |]; [field; apply si_nz; exact Hj|ring].
Qed.

Lemma hole_wf : well_formed g. Proof. apply Hg. Qed.
Lemma hole_sym : symmetric_program g. Proof. apply Hg. Qed.
(** Hamilton's equations in units G = c = M = 1 = the equations of motion of the KerrNewman object, uncharged particle *)
Lemma hole_iff q p t : q_val (mo_q o) = 0 -> chart a (q t) ->
  hamilton g q p t <-> moves (kn_f_vec c G Cc o) (fun u => si_point c G o (q u)) (fun u => si_velocity c G o g (q u) (p u)) t.
Proof.
  intros Hq Hd. destruct (proj1 (chart_dom (q t)) Hd) as [D Hs].
  destruct (kn_f_vec_defined c G Cc o (si_point c G o (q t)) (si_velocity c G o g (q t) (p t)) Hc HG HC D Hs) as [[v1 acc] E].
  assert (E' := kn_f_vec_uncharged _ _ _ _ _ _ _ _ Hq E). destruct E' as [-> [ch [Hch Ha]]].
  assert (K := hamilton_iff_geodesic g (MetricModel.kn_cov c G Cc o) (si c G o) kap (chart a) hole_wf hole_same si_nz kap_nz q p t ch Hd (kn_connection _ _ _ _ _ _ Hch)). cbv zeta in K.
  rewrite K. split.
  - intros [H1 H2]. exists acc. split; [exact H1|]. split; [exact E|]. rewrite Ha. exact H2.
  - intros (acc' & H1 & E2 & H2). cbv beta in E2. rewrite E in E2. apply Ok_inj in E2. injection E2 as E2. rewrite <- E2, Ha in H2. split; [exact H1|exact H2].
Qed.

(** from SI back *)
Definition unit_point (X : V4) : V4 := q4tab (fun k => q4nth X k / q4nth (si c G o) k).
Definition unit_momentum (X W : V4) : V4 := q4tab (fun k => q4nth (si c G o) k / kap * sum4 (fun b => entry (MetricModel.kn_cov c G Cc o X) k b * q4nth W b)).
Lemma point_unit X : si_point c G o (unit_point X) = X.
Proof.
  apply q4_ext. intros k K. unfold si_point. rewrite scaled_nth by exact K. unfold unit_point. rewrite q4nth_tab' by exact K. field. apply si_nz. exact K.
Qed.
Lemma unit_point_si x : unit_point (si_point c G o x) = x.
Proof.
  apply q4_ext. intros k K. unfold unit_point. rewrite q4nth_tab' by exact K. unfold si_point. rewrite scaled_nth by exact K. field. apply si_nz. exact K.
Qed.
Lemma velocity_unit X W : chart a (unit_point X) -> si_velocity c G o g (unit_point X) (unit_momentum X W) = W.
Proof.
  intros Hd. destruct (proj1 hole_same _ Hd) as (_ & mm' & E & Sym & Inv). change (scaled (si c G o) (unit_point X)) with (si_point c G o (unit_point X)) in E. rewrite point_unit in E.
  apply q4_ext. intros k K. unfold si_velocity.
  rewrite (vel_sum g (si c G o) kap si_nz kap_nz (unit_point X) (unit_momentum X W) k K).
  assert (P : forall d, (d < 4)%nat -> mom (si c G o) kap (unit_momentum X W) d = sum4 (fun b => mnth mm' d b * q4nth W b)).
  { intros d Hd'. unfold mom, unit_momentum. rewrite q4nth_tab' by exact Hd'. rewrite E. cbn [entry]. field. repeat split; first [exact kap_nz|apply si_nz; exact Hd']. }
  transitivity (sum4 (fun d => contraS g (si c G o) kap (unit_point X) k d * sum4 (fun b => mnth mm' d b * q4nth W b))); [apply sum4_ext; intros d Hd'; rewrite P by exact Hd'; reflexivity|].
  transitivity (sum4 (fun b => sum4 (fun d => mnth mm' b d * contraS g (si c G o) kap (unit_point X) d k) * q4nth W b)).
  - transitivity (sum4 (fun b => sum4 (fun d => mnth mm' d b * contraS g (si c G o) kap (unit_point X) k d) * q4nth W b)); [unfold sum4; ring|].
    apply sum4_ext. intros b Hb. f_equal. apply sum4_ext. intros d Hd'. rewrite (Sym d b) by assumption. f_equal. unfold contraS. rewrite (hole_sym (q4nth (unit_point X)) k d K Hd'). unfold Rdiv. ring.
  - transitivity (sum4 (fun b => delta4 b k * q4nth W b)); [apply sum4_ext; intros b Hb; rewrite Inv by assumption; reflexivity|]. nat4 k K; unfold sum4, delta4; cbn [Nat.eqb]; ring.
Qed.
Lemma moves_chart X W t : moves (kn_f_vec c G Cc o) X W t -> chart a (unit_point (X t)).
Proof.
  intros (acc & _ & E & _). apply chart_dom. rewrite point_unit. assert (Hc' : c <> 0) by lra. apply (kn_christoffels_defined c G Cc o (X t) Hc'). unfold kn_f_vec in E. rewrite Hsys in E.
  apply bindR_Ok in E. destruct E as [ch [E _]]. exists ch. exact E.
Qed.
Lemma moves_hamilton X W t : q_val (mo_q o) = 0 -> locally t (moves (kn_f_vec c G Cc o) X W) ->
  hamilton g (fun u => unit_point (X u)) (fun u => unit_momentum (X u) (W u)) t.
Proof.
  intros Hq HL. assert (M0 := locally_singleton _ _ HL). assert (Ch := moves_chart _ _ _ M0). apply hole_iff; [exact Hq|exact Ch|].
  destruct M0 as (acc & H1 & E & H2). exists acc. cbv beta. rewrite point_unit, velocity_unit by exact Ch. split; [|split; [exact E|]].
  - intros k K. eapply D_ext; [|apply H1; exact K]. intros u. cbv beta. rewrite point_unit. reflexivity.
  - intros k K. eapply D_ext_loc; [|apply H2; exact K]. revert HL. apply filter_imp. intros u Hu. rewrite velocity_unit by (apply (moves_chart _ _ _ Hu)). reflexivity.
Qed.
(** the rows computed by Geodesic converge to the motion described by f_vec *)
Lemma moves_trajectory X W T order w f n : q_val (mo_q o) = 0 -> 0 < T ->
  (forall t, 0 <= t <= T -> locally t (moves (kn_f_vec c G Cc o) X W)) ->
  integrator_of order (metricfun_of g) w = Ok f -> n = 2%nat \/ (order = 4 /\ n = 4)%nat ->
  exists q0 p0, si_point c G o q0 = X 0 /\ si_velocity c G o g q0 p0 = W 0 /\
  exists C N0, (0 < N0)%nat /\ forall N tl rtol atol suppress, (N0 <= N)%nat ->
  exists rows, calculate_trajectory g q0 p0 tl false (mkkw N (T / INR N) rtol atol order w suppress) = Ok (seq 0 N, rows) /\ length rows = N /\
  forall k row, nth_error rows k = Some row -> forall i, (i < 4)%nat ->
    Rabs (q4nth (si_point c G o (fst row)) i - q4nth (X (INR (S k) * (T / INR N))) i) <= C * (T / INR N) ^ n.
Proof.
  intros Hq HT HL Hf Hn. exists (unit_point (X 0)), (unit_momentum (X 0) (W 0)).
  assert (C0 : chart a (unit_point (X 0))) by (apply (moves_chart X W 0); apply (locally_singleton _ _ (HL 0 ltac:(lra)))).
  split; [apply point_unit|]. split; [apply velocity_unit; exact C0|].
  assert (GO : geodesic_on g (fun u => unit_point (X u)) (fun u => unit_momentum (X u) (W u)) T).
  { intros t Ht. split.
    - apply (proj1 hole_same). apply (moves_chart X W). apply (locally_singleton _ _ (HL t Ht)).
    - generalize (locally_locally _ _ (HL t Ht)). apply filter_imp. intros u Hu. apply moves_hamilton; [exact Hq|exact Hu]. }
  destruct (trajectory_converges order g w f n _ _ T Hf Hn hole_wf hole_sym HT GO) as (C & N0 & HN0 & H).
  set (B := Rabs (q4nth (si c G o) 0) + Rabs (q4nth (si c G o) 1) + Rabs (q4nth (si c G o) 2) + Rabs (q4nth (si c G o) 3)).
  exists (B * C), N0. split; [exact HN0|]. intros N tl rtol atol suppress HN. destruct (H N tl rtol atol suppress HN) as (rows & E & Hlen & Hrow). exists rows. split; [exact E|]. split; [exact Hlen|].
  intros k row Hr i Hi. destruct (Hrow k row Hr i Hi) as [A _]. cbv beta in A. set (tk := INR (S k) * (T / INR N)) in *.
  rewrite <- (point_unit (X tk)). unfold si_point. rewrite !scaled_nth by exact Hi. rewrite <- Rmult_minus_distr_l, Rabs_mult, Rmult_assoc.
  assert (Bi : Rabs (q4nth (si c G o) i) <= B).
  { unfold B. assert (P := fun j => Rabs_pos (q4nth (si c G o) j)). assert (P0 := P 0%nat). assert (P1 := P 1%nat). assert (P2 := P 2%nat). assert (P3 := P 3%nat). nat4 i Hi; lra. }
  apply Rmult_le_compat; [apply Rabs_pos|apply Rabs_pos|exact Bi|exact A].
Qed.

(** the Kerr object: same metric, but its f_vec describes another motion unless the particle has no azimuthal velocity or kerr_err = 0 *)
Lemma kerr_moves_iff ok q p t : mo_sys ok = BL -> same_body ok o -> q_val (mo_q o) = 0 -> chart a (q t) -> hamilton g q p t ->
  (moves (kerr_f_vec c G Cc ok) (fun u => si_point c G ok (q u)) (fun u => si_velocity c G ok g (q u) (p u)) t
    <-> kerr_err c G ok (si_point c G ok (q t)) * c3 (si_velocity c G ok g (q t) (p t)) = 0).
Proof.
  intros Sk SB Hq Hd Hh.
  assert (SI : si c G ok = si c G o) by (unfold si, grav_radius; rewrite (proj1 SB); reflexivity).
  unfold si_point, si_velocity. rewrite SI. fold (si_point c G o (q t)). fold (si_velocity c G o g (q t) (p t)).
  set (x := si_point c G o (q t)). set (v := si_velocity c G o g (q t) (p t)).
  destruct (proj1 (hole_iff q p t Hq Hd) Hh) as (a' & V1 & E & V2). cbv beta in E. fold x v in E.
  destruct (proj1 (chart_dom (q t)) Hd) as [D Hs]. fold x in D, Hs.
  assert (Dk : bl_dom c G ok x). { destruct D as [_ [D1 D2]]. unfold bl_dom, valid_spin in *. rewrite (same_al c G ok o SB), (same_rad c G ok o (proj1 SB)), (proj2 SB). tauto. }
  destruct (kerr_f_vec_defined c G Cc ok x v ltac:(lra) Dk Hs) as [[v1 ak] Ek].
  assert (Ev := kerr_f_vec_spec _ _ _ _ _ _ _ _ Ek). destruct Ev as [-> _].
  destruct (proj2 (kerr_vs_kn c G Cc ok o x Hc HG HC Sk Hsys SB Hq) _ _ _ Ek) as (a2 & g' & gi & E2 & Hg' & Hi & Df).
  rewrite E in E2. apply Ok_inj in E2. injection E2 as <-.
  assert (NE : mnth gi 1 1 <> 0 /\ mnth gi 1 3 = 0).
  { destruct (proj1 hole_same _ Hd) as (_ & m0 & Em & _ & Inv). change (scaled (si c G o) (q t)) with x in Em.
    assert (EqC := proj1 (kerr_vs_kn c G Cc ok o x Hc HG HC Sk Hsys SB Hq) x). rewrite Em, Hg' in EqC. apply Ok_inj in EqC. subst m0.
    assert (U : forall i j, (i < 4)%nat -> (j < 4)%nat -> mnth gi i j = contraS g (si c G o) kap (q t) i j).
    { intros i j Hi' Hj. transitivity (sum4 (fun d => mnth gi i d * delta4 d j)); [nat4 j Hj; unfold sum4, delta4; cbn [Nat.eqb]; ring|].
      transitivity (sum4 (fun d => mnth gi i d * sum4 (fun b => mnth g' d b * contraS g (si c G o) kap (q t) b j))); [apply sum4_ext; intros d Hd'; rewrite Inv by assumption; reflexivity|].
      transitivity (sum4 (fun b => mnth (mm gi g') i b * contraS g (si c G o) kap (q t) b j)).
      - unfold sum4 at 3. rewrite !mm_entry by lia. unfold sum4. ring.
      - rewrite (proj2 Hi). unfold sum4, id4. rewrite !mnth_tab by lia. nat4 i Hi'; cbn [Nat.eqb]; ring. }
    rewrite !U by lia. unfold contraS. rewrite !(kn_con_entry (q t) _ _ Hd) by lia. unfold kn_con, mnth. cbn [q4nth c0 c1 c2 c3].
    destruct Hd as (H1 & H2 & H3). split; [|unfold Rdiv; ring]. unfold Rdiv.
    repeat first [exact H2|exact (si_nz 1%nat ltac:(lia))|apply Rinv_neq_0_compat; first [exact H1|exact kap_nz]|apply Rmult_integral_contrapositive_currified]. }
  destruct NE as [N1 N2]. split.
  - intros (acc & _ & E3 & V3). cbv beta in E3. change (scaled (si c G o) (q t)) with x in E3. change (scaled (si c G o) (mv (metric_meaning g (q4nth (q t))) (p t))) with v in E3. rewrite Ek in E3. apply Ok_inj in E3. injection E3 as <-.
    assert (U := D_unique _ _ _ _ (V3 1%nat ltac:(lia)) (V2 1%nat ltac:(lia))). assert (F := Df 1%nat ltac:(lia)). rewrite U, N2 in F.
    assert (F2 : kerr_err c G ok x * (mnth gi 1 1 * c3 v ^ 2) = 0) by lra. clear F. 
    destruct (Rmult_integral _ _ F2) as [Z|Z]; [rewrite Z; ring|]. destruct (Rmult_integral _ _ Z) as [Z'|Z']; [contradiction|]. replace (c3 v) with 0; [ring|]. symmetry. apply Rsqr_0_uniq. unfold Rsqr. rewrite <- Z'. ring.
  - intros Z. assert (Ea : ak = a').
    { apply q4_ext. intros i Hi'. assert (F := Df i Hi'). replace (kerr_err c G ok x * (mnth gi i 1 * c3 v ^ 2 - 2 * mnth gi i 3 * c1 v * c3 v)) with ((kerr_err c G ok x * c3 v) * (mnth gi i 1 * c3 v - 2 * mnth gi i 3 * c1 v)) in F by ring. rewrite Z in F. lra. }
    exists a'. split; [exact V1|]. split; [cbv beta; rewrite <- Ea; exact Ek|exact V2].
Qed.
End Hole.

(** Schwarzschild: the KerrNewman object of the same mass without spin has the same equations of motion *)
Definition as_kn (o : mobj) : mobj := mkmobj NKerrNewman BL (mo_M o) (mkqty 0 1 DOne) (mkqty 0 1 DCharge) (mkqty 0 1 DOne).
Definition as_kn' (o : mobj) : mobj := mkmobj NKerrNewman BL (mo_M o) (mo_a o) (mkqty 0 1 DCharge) (mkqty 0 1 DOne).
Lemma sch_as_kn c G o x v y : 0 < c -> 0 < G -> mo_sys o = Sph -> sch_f_vec c G o x v = Ok y <-> kn_f_vec c G 1 (as_kn o) x v = Ok y.
Proof.
  intros Hc HG S. split; intros H.
  - apply (spinless_f_vec c G 1 (as_kn o) o x v y Hc HG Rlt_0_1 eq_refl S eq_refl eq_refl H). reflexivity.
  - apply (spinless_f_vec_back c G 1 (as_kn o) o x v y Hc HG Rlt_0_1 eq_refl S eq_refl eq_refl eq_refl). right. exact H.
Qed.
Lemma sch_moves c G o X W t : 0 < c -> 0 < G -> mo_sys o = Sph -> moves (sch_f_vec c G o) X W t <-> moves (kn_f_vec c G 1 (as_kn o)) X W t.
Proof.
  intros Hc HG S. split; intros (acc & H1 & E & H2); exists acc; (split; [exact H1|]); (split; [|exact H2]); apply (sch_as_kn c G o _ _ _ Hc HG S); exact E.
Qed.
Lemma as_kn_spin o : valid_spin (as_kn o).
Proof. unfold valid_spin, as_kn. cbn [mo_a q_val]. lra. Qed.
Lemma chart_sch x : chart 0 x <-> c1 x <> 0 /\ c1 x <> 2 /\ sin (c2 x) <> 0.
Proof.
  unfold chart, SigmaS, DeltaS. split.
  - intros (H1 & H2 & H3). repeat split; [| |exact H3]; intros E; [apply H1|apply H2]; rewrite E; ring.
  - intros (H1 & H2 & H3). split; [|split; [|exact H3]].
    + replace (c1 x * c1 x + 0 * 0 * (cos (c2 x) * cos (c2 x))) with (c1 x * c1 x) by ring. apply Rmult_integral_contrapositive_currified; exact H1.
    + replace (c1 x * c1 x - 2 * c1 x + 0 * 0 + 0 * 0) with (c1 x * (c1 x - 2)) by ring. apply Rmult_integral_contrapositive_currified; [exact H1|lra].
Qed.
Lemma sch_iff c G o g q p t : 0 < c -> 0 < G -> q_val (mo_M o) <> 0 -> mo_sys o = Sph -> is_kn g 0 0 ->
  c1 (q t) <> 0 -> c1 (q t) <> 2 -> sin (c2 (q t)) <> 0 ->
  hamilton g q p t <-> moves (sch_f_vec c G o) (fun u => si_point c G o (q u)) (fun u => si_velocity c G o g (q u) (p u)) t.
Proof.
  intros Hc HG HM S Hg H1 H2 H3. rewrite (sch_moves c G o _ _ t Hc HG S).
  apply (hole_iff c G 1 (as_kn o) g Hc HG Rlt_0_1 HM eq_refl (as_kn_spin o) Hg q p t eq_refl). apply chart_sch. repeat split; assumption.
Qed.
Lemma sch_trajectory c G o g X W T order w f n : 0 < c -> 0 < G -> q_val (mo_M o) <> 0 -> mo_sys o = Sph -> is_kn g 0 0 -> 0 < T ->
  (forall t, 0 <= t <= T -> locally t (moves (sch_f_vec c G o) X W)) ->
  integrator_of order (metricfun_of g) w = Ok f -> n = 2%nat \/ (order = 4 /\ n = 4)%nat ->
  exists q0 p0, si_point c G o q0 = X 0 /\ si_velocity c G o g q0 p0 = W 0 /\
  exists C N0, (0 < N0)%nat /\ forall N tl rtol atol suppress, (N0 <= N)%nat ->
  exists rows, calculate_trajectory g q0 p0 tl false (mkkw N (T / INR N) rtol atol order w suppress) = Ok (seq 0 N, rows) /\ length rows = N /\
  forall k row, nth_error rows k = Some row -> forall i, (i < 4)%nat ->
    Rabs (q4nth (si_point c G o (fst row)) i - q4nth (X (INR (S k) * (T / INR N))) i) <= C * (T / INR N) ^ n.
Proof.
  intros Hc HG HM S Hg HT HL. apply (moves_trajectory c G 1 (as_kn o) g Hc HG Rlt_0_1 HM eq_refl (as_kn_spin o) Hg X W T order w f n eq_refl HT).
  intros t Ht. generalize (HL t Ht). apply filter_imp. intros u Hu. apply (sch_moves c G o X W u Hc HG S). exact Hu.
Qed.

(** the refutation: the circular orbit at r = 9 around a Kerr hole with a = 3/5 *)
Lemma kerr_motion_refuted c G Cc : 0 < c -> 0 < G -> 0 < Cc ->
  exists o a q p, mo_sys o = BL /\ valid_spin o /\ q_val (mo_M o) <> 0 /\ q_val (mo_a o) = a /\
    (forall T, geodesic_on (kerrE a) q p T) /\ (forall t, chart a (q t)) /\
    forall t, ~ moves (kerr_f_vec c G Cc o) (fun u => si_point c G o (q u)) (fun u => si_velocity c G o (kerrE a) (q u) (p u)) t.
Proof.
  intros Hc HG HC. set (o := mkmobj NKerr BL (mkqty 1 1 DMass) (mkqty (3/5) 1 DOne) (mkqty 0 1 DCharge) (mkqty 0 1 DOne)).
  assert (Ok3 : circ_ok (3/5) 0 3) by (unfold circ_ok, c_r, DeltaS; split; lra).
  assert (GO : forall T, geodesic_on (kerrE (3/5)) (circ_q (3/5) 0 3 1) (circ_p (3/5) 0 3 1) T) by (intros T; apply circ_exact; [exact Ok3|apply named_is_kn]).
  assert (Ch : forall t, chart (3/5) (circ_q (3/5) 0 3 1 t)).
  { intros t. unfold chart, circ_q, c_r, SigmaS, DeltaS. cbn [c1 c2]. rewrite sin_PI2, cos_PI2. repeat split; lra. }
  exists o, (3/5), (circ_q (3/5) 0 3 1), (circ_p (3/5) 0 3 1). split; [reflexivity|]. split; [unfold valid_spin, o; cbn [mo_a q_val]; lra|].
  split; [unfold o; cbn [mo_M q_val]; lra|]. split; [reflexivity|]. split; [exact GO|]. split; [exact Ch|].
  intros t. destruct named_is_kn as (_ & NK & _). assert (Hh := circ_hamilton (3/5) 0 3 1 Ok3 (kerrE (3/5)) (NK (3/5)) t).
  set (on := as_kn' o). intros Mv.
  apply (kerr_moves_iff c G Cc on (kerrE (3/5)) Hc HG HC) in Mv; [|unfold on, as_kn', o; cbn [mo_M q_val]; lra|reflexivity|unfold on, as_kn', o, valid_spin; cbn [mo_a q_val]; lra|exact (NK (3/5))|reflexivity|split; reflexivity|reflexivity|exact (Ch t)|exact Hh].
  revert Mv. apply Rmult_integral_contrapositive_currified.
  - unfold kerr_err. assert (E1 : c1 (si_point c G o (circ_q (3/5) 0 3 1 t)) = grav_radius c G o * 9) by (unfold si_point, scaled, si, circ_q, c_r, q4tab; cbn [q4nth c0 c1 c2 c3]; ring).
    assert (E2 : c2 (si_point c G o (circ_q (3/5) 0 3 1 t)) = PI / 2) by (unfold si_point, scaled, si, circ_q, q4tab; cbn [q4nth c0 c1 c2 c3]; ring).
    rewrite E1, E2, sin_PI2, cos_PI2. assert (Mp : 0 < grav_radius c G o) by (unfold grav_radius, o; cbn [mo_M q_val]; unfold Rdiv; apply Rmult_lt_0_compat; [lra|apply Rinv_0_lt_compat; apply pow_lt; lra]).
    assert (Ea : al_of c G o = grav_radius c G o * (3/5)) by (unfold al_of, grav_radius, o; cbn [mo_M mo_a q_val]; ring). rewrite Ea.
    assert (Er : sch_rad c G o = 2 * grav_radius c G o) by (unfold sch_rad, schwarzschild_radius, grav_radius; cbn [prim]; field; lra). rewrite Er.
    set (m := grav_radius c G o) in *.
    replace ((m * (3 / 5) * 1) ^ 2 * (2 * m * ((m * (3 / 5) * 0) ^ 2 - (m * 9) ^ 2) / ((m * 9) ^ 2 + (m * (3 / 5) * 0) ^ 2) ^ 2) * 1 ^ 2) with (- (m * (2 / 225))) by (field; lra). lra.
  - replace (c3 (si_velocity c G o (kerrE (3 / 5)) (circ_q (3 / 5) 0 3 1 t) (circ_p (3 / 5) 0 3 1 t))) with 3; [lra|].
    assert (V := circ_vel (3/5) 0 3 1 Ok3 (kerrE (3/5)) (NK (3/5)) t). apply (f_equal c3) in V. unfold si_velocity, scaled, si, q4tab. cbn [q4nth c0 c1 c2 c3]. rewrite V. cbn [c3]. unfold c_pd. ring.
Qed.

(** *** closed forms *)
Lemma kn_iff c G Cc o g q p t : 0 < c -> 0 < G -> 0 < Cc -> q_val (mo_M o) <> 0 -> mo_sys o = BL -> valid_spin o -> is_kn g (q_val (mo_a o)) 0 ->
  q_val (mo_q o) = 0 -> chart (q_val (mo_a o)) (q t) ->
  hamilton g q p t <-> moves (kn_f_vec c G Cc o) (fun u => si_point c G o (q u)) (fun u => si_velocity c G o g (q u) (p u)) t.
Proof. intros. apply hole_iff; assumption. Qed.
Lemma kn_trajectory c G Cc o g X W T order w f n : 0 < c -> 0 < G -> 0 < Cc -> q_val (mo_M o) <> 0 -> mo_sys o = BL -> valid_spin o -> is_kn g (q_val (mo_a o)) 0 ->
  q_val (mo_q o) = 0 -> 0 < T ->
  (forall t, 0 <= t <= T -> locally t (moves (kn_f_vec c G Cc o) X W)) ->
  integrator_of order (metricfun_of g) w = Ok f -> n = 2%nat \/ (order = 4 /\ n = 4)%nat ->
  exists q0 p0, si_point c G o q0 = X 0 /\ si_velocity c G o g q0 p0 = W 0 /\
  exists C N0, (0 < N0)%nat /\ forall N tl rtol atol suppress, (N0 <= N)%nat ->
  exists rows, calculate_trajectory g q0 p0 tl false (mkkw N (T / INR N) rtol atol order w suppress) = Ok (seq 0 N, rows) /\ length rows = N /\
  forall k row, nth_error rows k = Some row -> forall i, (i < 4)%nat ->
    Rabs (q4nth (si_point c G o (fst row)) i - q4nth (X (INR (S k) * (T / INR N))) i) <= C * (T / INR N) ^ n.
Proof. intros. apply (moves_trajectory c G Cc o g) with (W := W) (f := f); assumption. Qed.
Lemma kerr_exact c G Cc o g q p t : 0 < c -> 0 < G -> 0 < Cc -> q_val (mo_M o) <> 0 -> mo_sys o = BL -> valid_spin o -> is_kn g (q_val (mo_a o)) 0 ->
  chart (q_val (mo_a o)) (q t) -> hamilton g q p t ->
  (moves (kerr_f_vec c G Cc o) (fun u => si_point c G o (q u)) (fun u => si_velocity c G o g (q u) (p u)) t
    <-> kerr_err c G o (si_point c G o (q t)) * c3 (si_velocity c G o g (q t) (p t)) = 0).
Proof. intros. apply (kerr_moves_iff c G Cc (as_kn' o) g); try assumption; try reflexivity. split; reflexivity. Qed.
