(** C130: the fate of bodies around the SI metric classes. *)
From Coq Require Import String Reals List ZArith Lra Lia Bool.
From Coquelicot Require Import Coquelicot.
From Verif Require Import Base Calc DualModel DualSpec DualProofs DualDiff GeoUtilsModel GeoUtilsSpec GeoUtilsProofs GeodesicModel GeodesicProofs CoordModel CoordProofs2 ConvModel ConvProofs
  FantasyModel FantasyProofs FantasyProofs2 FantasyProofs3 FantasyHam FantasyOrder FantasyGlobal FantasyGlobal2 FantasyGlobal3 FantasyShell FantasyCyclic FantasyCircular FloatModel FantasyCarter FloatPlane FloatGlobal ProgCont
  MetricModel MetricSpec MetricProofs MetricProofs2 MetricProofs3 MetricHamilton MetricHamilton2 MetricRK MetricCarter FloatInv Picard PicardProg.
From Verif Require Import ConvProofs2 MetricProofs6 MetricProofs7 MetricProofs8 MetricUnify FloatTrack FloatRK FloatRKG FloatMetricModel FloatMetric FloatMetric2 FloatMetric3 FloatMetric4 FloatMetric5 FloatMetric6 FloatMetric7 FloatMetric8 FloatVel FloatFlow.
From Verif Require Import Contin Leave GlobalHole GlobalHole2 GlobalMotion.
From Verif Require Import Fate Scatter FateOrbit2.
Import ListNotations.
Open Scope R_scope.

(** outside r1, r1 outside the horizon, off the axis, with angular momentum *)
Definition exterior_si (rs al r1 : R) (x : V4) (h : M4) (w : V4) : Prop := rs / 2 <= r1 < c1 x /\ 0 < dl_of rs al r1 /\ 0 < c2 x < PI /\ FloatInv.low 3 h w <> 0.

Section SI.
Variables (c G Cc : R) (o : mobj).
Hypothesis Hc : 0 < c.
Hypothesis HG : 0 < G.
Hypothesis HC : 0 < Cc.
Hypothesis HM : 0 < q_val (mo_M o).
Hypothesis Hsys : mo_sys o = BL.
Hypothesis Hspin : valid_spin o.
Hypothesis Hq : q_val (mo_q o) = 0.
Let a := q_val (mo_a o).
Let g := kerrE a.
Let m := grav_radius c G o.
Let kap := - (m * m).
Let M := m_pos c G o Hc HG HM.
Let Mnz := M_nz o HM.
Lemma mm_pos : 0 < m * m * (kap * kap).
Proof. assert (X : 0 < m) by exact M. assert (MM : 0 < m * m) by (apply Rmult_lt_0_compat; exact X). unfold kap. rewrite Rmult_opp_opp. apply Rmult_lt_0_compat; [exact MM|apply Rmult_lt_0_compat; exact MM]. Qed.
Lemma dl_unit r : dl_of (sch_rad c G o) (al_of c G o) r = m * m * DeltaS (r / m) a 0.
Proof. assert (X : 0 < m) by exact M. rewrite (si_rad c G o Hc), (si_al c G o). fold m a. unfold dl_of, DeltaS. field. lra. Qed.
Lemma radial_unit x h w r : MetricModel.kn_cov c G Cc o x = Ok h -> chart a (unit_point c G o x) ->
  radial_si c (sch_rad c G o) (al_of c G o) x h w r = m * m * (kap * kap) * potential g a 0 (unit_point c G o x) (unit_momentum c G Cc o x w) (r / m).
Proof.
  intros E Ch. assert (Ik : is_kn g a 0) by (apply hole_kerr). assert (X : 0 < m) by exact M. assert (Kz : kap <> 0) by (unfold kap; nra).
  assert (P0 := um_nth c G Cc o x w h 0 E ltac:(lia)). assert (P3 := um_nth c G Cc o x w h 3 E ltac:(lia)). unfold si in P0, P3. cbn [q4nth c0 c1 c2 c3] in P0, P3. fold m kap in P0, P3.
  assert (UC := um_carter c G Cc o g Hc HG Mnz Hsys Hspin Ik x w h E Ch). fold a m kap in UC. unfold potential. rewrite UC.
  rewrite (um_ham c G Cc o g Hc HG Mnz Hsys Hspin Ik x w h E Ch). fold m kap. rewrite P0, P3.
  unfold radial_si. cbv zeta. rewrite dl_unit, (si_al c G o). fold m a. unfold radial.
  generalize (FloatInv.low 0 h w) (FloatInv.low 3 h w) (carter_si c (m * a) x h w) (ConvProofs2.norm2 h w) (DeltaS (r / m) a 0). intros l0 l3 K N D. unfold kap. field. split; lra.
Qed.
Lemma energy_unit x h w : MetricModel.kn_cov c G Cc o x = Ok h -> chart a (unit_point c G o x) ->
  (FloatInv.low 0 h w / c) * (FloatInv.low 0 h w / c) - ConvProofs2.norm2 h w = m * m * (c0 (unit_momentum c G Cc o x w) * c0 (unit_momentum c G Cc o x w) + 2 * Ham g (unit_point c G o x) (unit_momentum c G Cc o x w)).
Proof.
  intros E Ch. assert (Ik : is_kn g a 0) by (apply hole_kerr). assert (X : 0 < m) by exact M. assert (Kz : kap <> 0) by (unfold kap; nra).
  assert (P0 := um_nth c G Cc o x w h 0 E ltac:(lia)). unfold si in P0. cbn [q4nth c0 c1 c2 c3] in P0. fold m kap in P0.
  rewrite (um_ham c G Cc o g Hc HG Mnz Hsys Hspin Ik x w h E Ch). fold m kap. rewrite P0.
  generalize (FloatInv.low 0 h w) (ConvProofs2.norm2 h w). intros l0 N. unfold kap. field. split; lra.
Qed.
Lemma si_motion x h w q p S : MetricModel.kn_cov c G Cc o x = Ok h -> chart a (unit_point c G o x) -> q 0 = unit_point c G o x -> p 0 = unit_momentum c G Cc o x w -> geodesic_on g q p S ->
  exists X W, X 0 = x /\ W 0 = w /\ (forall t, 0 <= t <= S -> locally t (moves (kn_f_vec c G Cc o) X W)) /\ forall t, c1 (X t) = m * c1 (q t) /\ c2 (X t) = c2 (q t).
Proof.
  intros E Ch E0 E1 HGd. assert (Hk : hole g a 0) by apply hole_kerr. assert (Ik : is_kn g a 0) by apply Hk.
  exists (fun u => si_point c G o (q u)), (fun u => si_velocity c G o g (q u) (p u)). cbv beta. rewrite E0, E1.
  split; [apply (point_unit c G o Hc HG Mnz)|]. split; [apply (velocity_unit c G Cc o g Hc HG Mnz Hsys Hspin Ik x w Ch)|]. split.
  - intros t Ht. destruct (HGd t Ht) as [D HL].
    assert (Ct : chart a (q t)). { unfold chart. destruct (ap_dom g a 0 q p S Hk HGd t Ht) as (A1 & A2 & A3). split; [exact A1|split; assumption]. }
    assert (V := hamilton_velocity _ _ _ _ (locally_singleton _ _ HL)). assert (CO := chart_open a q t _ V Ct).
    generalize (filter_and _ _ HL CO). apply filter_imp. intros u [Hu Cu]. apply (hole_iff c G Cc o g Hc HG HC Mnz Hsys Hspin Ik q p u Hq Cu). exact Hu.
  - intros t. split; [reflexivity|]. change (1 * c2 (q t) = c2 (q t)). ring.
Qed.
Lemma exterior_unit x h w r1 : MetricModel.kn_cov c G Cc o x = Ok h -> exterior_si (sch_rad c G o) (al_of c G o) r1 x h w ->
  chart a (unit_point c G o x) /\ exterior a 0 (r1 / m) (unit_point c G o x) (unit_momentum c G Cc o x w).
Proof.
  intros E (B1 & B2 & B3 & B4). assert (X : 0 < m) by exact M. assert (RS : sch_rad c G o / 2 = m) by (rewrite (si_rad c G o Hc); fold m; field). rewrite RS in B1.
  assert (U1 : c1 (unit_point c G o x) = c1 x / m) by reflexivity. assert (U2 : c2 (unit_point c G o x) = c2 x) by apply up_ang.
  assert (R1 : 1 <= r1 / m < c1 x / m). { split; [apply Rmult_le_reg_r with m|apply Rmult_lt_reg_r with m]; try exact X; field_simplify; lra. }
  rewrite dl_unit in B2. assert (D1 : 0 < DeltaS (r1 / m) a 0) by (apply Rmult_lt_reg_l with (m * m); [nra|lra]).
  assert (DM := delta_mono a 0 (r1 / m) (c1 x / m) ltac:(lra)). assert (SG := sigma_ge (c1 x / m) (c2 x) a). assert (HS0 : 0 < sin (c2 x)) by (apply sin_gt_0; apply B3).
  split; [unfold chart; rewrite U1, U2; split; [nra|split; lra]|]. unfold exterior. rewrite U1, U2. split; [exact R1|]. split; [exact D1|]. split; [exact B3|].
  assert (Kz : kap <> 0) by (unfold kap; nra). assert (P3 := um_nth c G Cc o x w h 3 E ltac:(lia)). unfold si in P3. cbn [q4nth c0 c1 c2 c3] in P3. fold m kap in P3.
  rewrite P3. apply Rmult_integral_contrapositive_currified; [|exact B4]. unfold Rdiv. rewrite Rmult_1_l. apply Rinv_neq_0_compat. exact Kz.
Qed.
Lemma radial_v x h w : MetricModel.kn_cov c G Cc o x = Ok h -> chart a (unit_point c G o x) -> 0 < DeltaS (c1 x / m) a 0 -> 0 < SigmaS (c1 x / m) (c2 x) a -> exists z, 0 < z /\ c1 (unit_momentum c G Cc o x w) = z * c1 w.
Proof.
  intros E Ch HD HS. assert (Ik : is_kn g a 0) by (apply hole_kerr). assert (X : 0 < m) by exact M.
  assert (V := velocity_unit c G Cc o g Hc HG Mnz Hsys Hspin Ik x w Ch).
  assert (U1 : c1 (unit_point c G o x) = c1 x / m) by reflexivity. assert (U2 : c2 (unit_point c G o x) = c2 x) by apply up_ang. rewrite <- U1 in HD. rewrite <- U1, <- U2 in HS.
  set (u := unit_point c G o x) in *. set (P := unit_momentum c G Cc o x w) in *.
  assert (EM : metric_meaning g (q4nth u) = kn_con a 0 (c1 u) (c2 u)). { destruct Ch as (A1 & A2 & A3). destruct u as [x0 x1 x2 x3]. exact (proj2 (proj2 (proj2 Ik) x0 x1 x2 x3 A1 A2 A3)). }
  assert (V1 : m * c1 (mv (kn_con a 0 (c1 u) (c2 u)) P) = c1 w). { rewrite <- EM. assert (V' := f_equal c1 V). exact V'. }
  exists (SigmaS (c1 u) (c2 u) a / (m * DeltaS (c1 u) a 0)). split; [apply Rdiv_lt_0_compat; [exact HS|apply Rmult_lt_0_compat; assumption]|]. rewrite <- V1.
  destruct P as [P0 P1 P2 P3]. unfold kn_con, mv, dot. cbv zeta. cbn [q4map q4nth c0 c1 c2 c3]. field. repeat split; lra.
Qed.
Lemma ext_data x h w r1 : MetricModel.kn_cov c G Cc o x = Ok h -> exterior_si (sch_rad c G o) (al_of c G o) r1 x h w -> 0 < DeltaS (c1 x / m) a 0 /\ 0 < SigmaS (c1 x / m) (c2 x) a.
Proof.
  intros E H. assert (XX := proj2 (exterior_unit x h w r1 E H)). assert (X : 0 < m) by exact M. assert (D := ext_delta a 0 (r1 / m) _ _ XX (c1 x / m)). destruct XX as (B1 & _). change (c1 (unit_point c G o x)) with (c1 x / m) in B1.
  split; [apply D; lra|]. assert (SG := sigma_ge (c1 x / m) (c2 x) a). nra.
Qed.
Lemma up_lt r y : r / m < y <-> r < m * y.
Proof. assert (X : 0 < m) by exact M. split; intros H; [apply Rmult_lt_compat_l with (r := m) in H; [|exact X]|apply Rmult_lt_reg_l with m; [exact X|]]; replace (m * (r / m)) with r in * by (field; lra); exact H. Qed.
Lemma mm_r r : m * (r / m) = r. Proof. assert (X : 0 < m) by exact M. field. lra. Qed.
Lemma mlt y z : y < z <-> m * y < m * z.
Proof. assert (X : 0 < m) by exact M. split; intros H; [apply Rmult_lt_compat_l; assumption|apply Rmult_lt_reg_l with m; assumption]. Qed.

Theorem kn_reach x h w r1 : MetricModel.kn_cov c G Cc o x = Ok h -> exterior_si (sch_rad c G o) (al_of c G o) r1 x h w -> forall T, 0 < T ->
  exists S X W, 0 < S <= T /\ X 0 = x /\ W 0 = w /\ (forall t, 0 <= t <= S -> locally t (moves (kn_f_vec c G Cc o) X W)) /\ (forall t, 0 <= t < S -> r1 < c1 (X t)) /\ (S = T /\ r1 < c1 (X S) \/ c1 (X S) = r1).
Proof.
  intros E H T HT. destruct (exterior_unit x h w r1 E H) as [Ch HX].
  destruct (named_reach _ _ _ _ _ _ _ _ (nb_kerr a []) HX T ltac:(lra)) as [(q & p & E0 & E1 & HGd & Hab)|(S & q & p & HS & E0 & E1 & HGd & Hx & Hbef & _)].
  - destruct (si_motion x h w q p T E Ch E0 E1 HGd) as (X & W & X0 & W0 & HMv & HC1). exists T, X, W. split; [lra|]. split; [exact X0|]. split; [exact W0|]. split; [exact HMv|].
    split; [intros t Ht; rewrite (proj1 (HC1 t)); apply up_lt; apply Hab; lra|]. left. split; [reflexivity|]. rewrite (proj1 (HC1 T)). apply up_lt. apply Hab. lra.
  - destruct (si_motion x h w q p S E Ch E0 E1 HGd) as (X & W & X0 & W0 & HMv & HC1). exists S, X, W. split; [exact HS|]. split; [exact X0|]. split; [exact W0|]. split; [exact HMv|].
    split; [intros t Ht; rewrite (proj1 (HC1 t)); apply up_lt; apply Hbef; exact Ht|]. right. rewrite (proj1 (HC1 S)), Hx. apply mm_r.
Qed.
Lemma pot_pos x h w r : MetricModel.kn_cov c G Cc o x = Ok h -> chart a (unit_point c G o x) -> 0 < radial_si c (sch_rad c G o) (al_of c G o) x h w (m * r) -> 0 < potential g a 0 (unit_point c G o x) (unit_momentum c G Cc o x w) r.
Proof.
  intros E Ch H. rewrite (radial_unit x h w _ E Ch) in H. assert (P := mm_pos). assert (X : 0 < m) by exact M. replace (m * r / m) with r in H by (field; lra). apply Rmult_lt_reg_l with (m * m * (kap * kap)); [exact P|]. rewrite Rmult_0_r. exact H.
Qed.
Theorem kn_captured x h w r1 : MetricModel.kn_cov c G Cc o x = Ok h -> exterior_si (sch_rad c G o) (al_of c G o) r1 x h w -> c1 w < 0 ->
  (forall r, r1 <= r <= c1 x -> 0 < radial_si c (sch_rad c G o) (al_of c G o) x h w r) ->
  exists S X W, 0 < S /\ X 0 = x /\ W 0 = w /\ (forall t, 0 <= t <= S -> locally t (moves (kn_f_vec c G Cc o) X W)) /\ c1 (X S) = r1 /\ forall t u, 0 <= t < u -> u <= S -> c1 (X u) < c1 (X t).
Proof.
  intros E H Hin Hpot. destruct (exterior_unit x h w r1 E H) as [Ch HX]. destruct (ext_data x h w r1 E H) as [HD HS]. destruct (radial_v x h w E Ch HD HS) as (z & Hz & Ez). assert (X' : 0 < m) by exact M.
  destruct (named_captured _ _ _ _ _ _ _ _ (nb_kerr a []) HX) as (S & q & p & HS' & E0 & E1 & HGd & Hx & Mono & _).
  - rewrite Ez. nra.
  - intros r Hr. apply (pot_pos x h w r E Ch). apply Hpot. change (c1 (unit_point c G o x)) with (c1 x / m) in Hr.
    split; [apply Rle_trans with (m * (r1 / m)); [right; symmetry; apply mm_r|apply Rmult_le_compat_l; lra]|apply Rle_trans with (m * (c1 x / m)); [apply Rmult_le_compat_l; lra|right; apply mm_r]].
  - destruct (si_motion x h w q p S E Ch E0 E1 HGd) as (X & W & X0 & W0 & HMv & HC1). exists S, X, W. split; [exact HS'|]. split; [exact X0|]. split; [exact W0|]. split; [exact HMv|].
    split; [rewrite (proj1 (HC1 S)), Hx; apply mm_r|]. intros t u Ht Hu. rewrite (proj1 (HC1 t)), (proj1 (HC1 u)). apply (proj1 (mlt _ _)). apply Mono; assumption.
Qed.
Theorem kn_escapes x h w r1 : MetricModel.kn_cov c G Cc o x = Ok h -> exterior_si (sch_rad c G o) (al_of c G o) r1 x h w -> 0 < c1 w ->
  (forall r, c1 x <= r -> 0 < radial_si c (sch_rad c G o) (al_of c G o) x h w r) -> ConvProofs2.norm2 h w < (FloatInv.low 0 h w / c) * (FloatInv.low 0 h w / c) ->
  exists k, 0 < k /\ forall T, 0 <= T -> exists X W, X 0 = x /\ W 0 = w /\ (forall t, 0 <= t <= T -> locally t (moves (kn_f_vec c G Cc o) X W)) /\ forall t, 0 <= t <= T -> c1 x + k * t <= c1 (X t).
Proof.
  intros E H Hout Hpot He. destruct (exterior_unit x h w r1 E H) as [Ch HX]. destruct (ext_data x h w r1 E H) as [HD HS]. destruct (radial_v x h w E Ch HD HS) as (z & Hz & Ez). assert (X' : 0 < m) by exact M.
  destruct (named_escapes _ _ _ _ _ _ _ _ (nb_kerr a []) HX) as (k & Hk & HT).
  - rewrite Ez. nra.
  - intros r Hr. apply (pot_pos x h w r E Ch). apply Hpot. change (c1 (unit_point c G o x)) with (c1 x / m) in Hr. apply Rle_trans with (m * (c1 x / m)); [right; symmetry; apply mm_r|apply Rmult_le_compat_l; lra].
  - assert (EN := energy_unit x h w E Ch). apply Rmult_lt_reg_l with (m * m); [nra|]. refine (Rlt_le_trans _ _ _ _ (Req_le _ _ EN)). rewrite Rmult_0_r. lra.
  - exists (m * k). split; [apply Rmult_lt_0_compat; assumption|]. intros T HT'. destruct (HT T HT') as (q & p & E0 & E1 & HGd & _ & Lin).
    destruct (si_motion x h w q p T E Ch E0 E1 HGd) as (X & W & X0 & W0 & HMv & HC1). exists X, W. split; [exact X0|]. split; [exact W0|]. split; [exact HMv|].
    intros t Ht. rewrite (proj1 (HC1 t)). assert (L := proj1 (Lin t Ht)). change (c1 (unit_point c G o x)) with (c1 x / m) in L. apply Rmult_le_compat_l with (r := m) in L; [|lra]. rewrite Rmult_plus_distr_l, mm_r in L. lra.
Qed.
Theorem kn_scattered x h w r1 rt : MetricModel.kn_cov c G Cc o x = Ok h -> barred_si c (sch_rad c G o) (al_of c G o) r1 x h w -> c1 w < 0 -> rt < c1 x ->
  turning_point (radial_si c (sch_rad c G o) (al_of c G o) x h w) rt -> ConvProofs2.norm2 h w < (FloatInv.low 0 h w / c) * (FloatInv.low 0 h w / c) ->
  exists s s' k, 0 < s < s' /\ 0 < k /\ forall T, s' <= T -> exists X W, X 0 = x /\ W 0 = w /\ (forall t, 0 <= t <= T -> locally t (moves (kn_f_vec c G Cc o) X W)) /\ c1 (X s) = rt /\
    (forall t u, 0 <= t < u -> u <= s -> c1 (X u) < c1 (X t)) /\ (forall t u, s <= t < u -> u <= T -> c1 (X t) < c1 (X u)) /\ forall t, s' <= t <= T -> rt + k * (t - s') < c1 (X t).
Proof.
  intros E HB Hin Hrt (Hroot & (l & Hl & Hd) & Hpos) He. destruct (barred_unit c G Cc o Hc HG HM Hsys Hspin x h w r1 E HB) as (Ch & B). fold a g m in Ch, B.
  assert (H : exterior_si (sch_rad c G o) (al_of c G o) r1 x h w) by (destruct HB as (B1 & B2 & B3 & B4 & _); split; [exact B1|split; [exact B2|split; assumption]]).
  destruct (ext_data x h w r1 E H) as [HD HS]. destruct (radial_v x h w E Ch HD HS) as (z & Hz & Ez). assert (X' : 0 < m) by exact M. assert (P := mm_pos).
  set (pt := potential g a 0 (unit_point c G o x) (unit_momentum c G Cc o x w)) in *.
  assert (SC : forall y, pt y = radial_si c (sch_rad c G o) (al_of c G o) x h w (m * y) / (m * m * (kap * kap))).
  { intros y. rewrite (radial_unit x h w _ E Ch). fold pt. replace (m * y / m) with y by (field; lra). field. assert (kap <> 0) by (unfold kap; nra). lra. }
  destruct (named_flyby _ _ _ _ _ _ (rt / m) _ _ (nb_kerr a []) B) as (s & s' & k & Hs & Hk & HT).
  - rewrite Ez. nra.
  - change (c1 (unit_point c G o x)) with (c1 x / m). apply up_lt. rewrite mm_r. exact Hrt.
  - split; [|split].
    + fold g pt. rewrite SC, mm_r, Hroot. unfold Rdiv. ring.
    + exists (m * l / (m * m * (kap * kap))). split; [apply Rdiv_lt_0_compat; [apply Rmult_lt_0_compat; assumption|exact P]|]. fold g pt.
      apply (is_derive_ext (fun y => radial_si c (sch_rad c G o) (al_of c G o) x h w (m * y) * / (m * m * (kap * kap)))); [intros y; symmetry; apply SC|].
      assert (DC := D_comp (radial_si c (sch_rad c G o) (al_of c G o) x h w) (fun y => m * y) (rt / m) l m). rewrite mm_r in DC. specialize (DC Hd).
      assert (DL : is_derive (fun y => m * y) (rt / m) m) by (auto_derive; [exact Logic.I|ring]). specialize (DC DL).
      eapply D_eq; [exact (D_mult _ _ _ _ _ DC (D_const (/ (m * m * (kap * kap))) (rt / m)))|]. unfold Rdiv. ring.
    + intros y Hy. apply (pot_pos x h w y E Ch). apply Hpos. apply (proj1 (up_lt rt y)). exact Hy.
  - assert (EN := energy_unit x h w E Ch). apply Rmult_lt_reg_l with (m * m); [nra|]. refine (Rlt_le_trans _ _ _ _ (Req_le _ _ EN)). rewrite Rmult_0_r. lra.
  - exists s, s', (m * k). split; [exact Hs|]. split; [apply Rmult_lt_0_compat; assumption|]. intros T HT'. destruct (HT T HT') as (q & p & E0 & E1 & HGd & Hx & Dec & Inc & Far).
    destruct (si_motion x h w q p T E Ch E0 E1 HGd) as (X & W & X0 & W0 & HMv & HC1). exists X, W. split; [exact X0|]. split; [exact W0|]. split; [exact HMv|].
    split; [rewrite (proj1 (HC1 s)), Hx; apply mm_r|]. split; [intros t u Ht Hu; rewrite (proj1 (HC1 t)), (proj1 (HC1 u)); apply (proj1 (mlt _ _)); apply Dec; assumption|]. split; [intros t u Ht Hu; rewrite (proj1 (HC1 t)), (proj1 (HC1 u)); apply (proj1 (mlt _ _)); apply Inc; assumption|].
    intros t Ht. rewrite (proj1 (HC1 t)). assert (L := Far t Ht). apply (proj1 (mlt _ _)) in L. rewrite Rmult_plus_distr_l, mm_r in L. lra.
Qed.
Theorem kn_bound x h w r1 : MetricModel.kn_cov c G Cc o x = Ok h -> barred_si c (sch_rad c G o) (al_of c G o) r1 x h w -> (FloatInv.low 0 h w / c) * (FloatInv.low 0 h w / c) < ConvProofs2.norm2 h w ->
  exists r2, forall T, 0 <= T -> exists X W, X 0 = x /\ W 0 = w /\ (forall t, 0 <= t <= T -> locally t (moves (kn_f_vec c G Cc o) X W)) /\ forall t, 0 <= t <= T -> r1 < c1 (X t) < r2.
Proof.
  intros E HB He. destruct (barred_unit c G Cc o Hc HG HM Hsys Hspin x h w r1 E HB) as (Ch & B). fold a g m in Ch, B. assert (X' : 0 < m) by exact M.
  destruct (named_bound _ _ _ _ _ _ _ _ (nb_kerr a []) B) as (r2 & HT).
  - assert (EN := energy_unit x h w E Ch). apply Rmult_lt_reg_l with (m * m); [nra|]. refine (Rle_lt_trans _ _ _ (Req_le _ _ (eq_sym EN)) _). rewrite Rmult_0_r. lra.
  - exists (m * r2). intros T HT'. destruct (HT T HT') as (q & p & E0 & E1 & HGd & HR). destruct (si_motion x h w q p T E Ch E0 E1 HGd) as (X & W & X0 & W0 & HMv & HC1). exists X, W. split; [exact X0|]. split; [exact W0|]. split; [exact HMv|].
    intros t Ht. rewrite (proj1 (HC1 t)). destruct (HR t Ht) as [[A1 A2] _]. split; [apply up_lt; exact A1|apply (proj1 (mlt _ _)); exact A2].
Qed.
End SI.

(** Schwarzschild: the same, with no charge constant and no spin *)
Lemma sch_back c G o X W T : 0 < c -> 0 < G -> mo_sys o = Sph -> (forall t, 0 <= t <= T -> locally t (moves (kn_f_vec c G 1 (as_kn o)) X W)) -> forall t, 0 <= t <= T -> locally t (moves (sch_f_vec c G o) X W).
Proof. intros Hc HG S H t Ht. generalize (H t Ht). apply filter_imp. intros u Hu. apply (sch_moves c G o X W u Hc HG S). exact Hu. Qed.
Theorem sch_reach c G o x h w r1 : 0 < c -> 0 < G -> 0 < q_val (mo_M o) -> mo_sys o = Sph ->
  MetricModel.sch_cov c G o x = Ok h -> exterior_si (sch_rad c G o) 0 r1 x h w -> forall T, 0 < T ->
  exists S X W, 0 < S <= T /\ X 0 = x /\ W 0 = w /\ (forall t, 0 <= t <= S -> locally t (moves (sch_f_vec c G o) X W)) /\ (forall t, 0 <= t < S -> r1 < c1 (X t)) /\ (S = T /\ r1 < c1 (X S) \/ c1 (X S) = r1).
Proof.
  intros Hc HG HM S E HB T HT. rewrite <- (sch_to_kn c G o x S) in E. assert (A : al_of c G (as_kn o) = 0) by (unfold al_of, as_kn; cbn [mo_a q_val]; ring).
  assert (K := kn_reach c G 1 (as_kn o) Hc HG Rlt_0_1 HM eq_refl (as_kn_spin o) eq_refl x h w r1 E). rewrite A in K. destruct (K HB T HT) as (S' & X & W & A1 & A2 & A3 & A4 & A5). exists S', X, W. split; [exact A1|]. split; [exact A2|]. split; [exact A3|]. split; [exact (sch_back c G o X W S' Hc HG S A4)|exact A5].
Qed.
Theorem sch_captured c G o x h w r1 : 0 < c -> 0 < G -> 0 < q_val (mo_M o) -> mo_sys o = Sph ->
  MetricModel.sch_cov c G o x = Ok h -> exterior_si (sch_rad c G o) 0 r1 x h w -> c1 w < 0 ->
  (forall r, r1 <= r <= c1 x -> 0 < radial_si c (sch_rad c G o) 0 x h w r) ->
  exists S X W, 0 < S /\ X 0 = x /\ W 0 = w /\ (forall t, 0 <= t <= S -> locally t (moves (sch_f_vec c G o) X W)) /\ c1 (X S) = r1 /\ forall t u, 0 <= t < u -> u <= S -> c1 (X u) < c1 (X t).
Proof.
  intros Hc HG HM S E HB H1 H2. rewrite <- (sch_to_kn c G o x S) in E. assert (A : al_of c G (as_kn o) = 0) by (unfold al_of, as_kn; cbn [mo_a q_val]; ring).
  assert (K := kn_captured c G 1 (as_kn o) Hc HG Rlt_0_1 HM eq_refl (as_kn_spin o) eq_refl x h w r1 E). rewrite A in K. destruct (K HB H1 H2) as (S' & X & W & A1 & A2 & A3 & A4 & A5). exists S', X, W. split; [exact A1|]. split; [exact A2|]. split; [exact A3|]. split; [exact (sch_back c G o X W S' Hc HG S A4)|exact A5].
Qed.
Theorem sch_escapes c G o x h w r1 : 0 < c -> 0 < G -> 0 < q_val (mo_M o) -> mo_sys o = Sph ->
  MetricModel.sch_cov c G o x = Ok h -> exterior_si (sch_rad c G o) 0 r1 x h w -> 0 < c1 w ->
  (forall r, c1 x <= r -> 0 < radial_si c (sch_rad c G o) 0 x h w r) -> ConvProofs2.norm2 h w < (FloatInv.low 0 h w / c) * (FloatInv.low 0 h w / c) ->
  exists k, 0 < k /\ forall T, 0 <= T -> exists X W, X 0 = x /\ W 0 = w /\ (forall t, 0 <= t <= T -> locally t (moves (sch_f_vec c G o) X W)) /\ forall t, 0 <= t <= T -> c1 x + k * t <= c1 (X t).
Proof.
  intros Hc HG HM S E HB H1 H2 H3. rewrite <- (sch_to_kn c G o x S) in E. assert (A : al_of c G (as_kn o) = 0) by (unfold al_of, as_kn; cbn [mo_a q_val]; ring).
  assert (K := kn_escapes c G 1 (as_kn o) Hc HG Rlt_0_1 HM eq_refl (as_kn_spin o) eq_refl x h w r1 E). rewrite A in K. destruct (K HB H1 H2 H3) as (k & Hk & F). exists k. split; [exact Hk|]. intros T HT. destruct (F T HT) as (X & W & A2 & A3 & A4 & A5). exists X, W. split; [exact A2|]. split; [exact A3|]. split; [exact (sch_back c G o X W T Hc HG S A4)|exact A5].
Qed.
Theorem sch_scattered c G o x h w r1 rt : 0 < c -> 0 < G -> 0 < q_val (mo_M o) -> mo_sys o = Sph ->
  MetricModel.sch_cov c G o x = Ok h -> barred_si c (sch_rad c G o) 0 r1 x h w -> c1 w < 0 -> rt < c1 x ->
  turning_point (radial_si c (sch_rad c G o) 0 x h w) rt -> ConvProofs2.norm2 h w < (FloatInv.low 0 h w / c) * (FloatInv.low 0 h w / c) ->
  exists s s' k, 0 < s < s' /\ 0 < k /\ forall T, s' <= T -> exists X W, X 0 = x /\ W 0 = w /\ (forall t, 0 <= t <= T -> locally t (moves (sch_f_vec c G o) X W)) /\ c1 (X s) = rt /\
    (forall t u, 0 <= t < u -> u <= s -> c1 (X u) < c1 (X t)) /\ (forall t u, s <= t < u -> u <= T -> c1 (X t) < c1 (X u)) /\ forall t, s' <= t <= T -> rt + k * (t - s') < c1 (X t).
Proof.
  intros Hc HG HM S E HB H1 H2 H3 H4. rewrite <- (sch_to_kn c G o x S) in E. assert (A : al_of c G (as_kn o) = 0) by (unfold al_of, as_kn; cbn [mo_a q_val]; ring).
  assert (K := kn_scattered c G 1 (as_kn o) Hc HG Rlt_0_1 HM eq_refl (as_kn_spin o) eq_refl x h w r1 rt E). rewrite A in K. destruct (K HB H1 H2 H3 H4) as (s & s' & k & Hs & Hk & F). exists s, s', k. split; [exact Hs|]. split; [exact Hk|]. intros T HT. destruct (F T HT) as (X & W & A2 & A3 & A4 & A5). exists X, W. split; [exact A2|]. split; [exact A3|]. split; [exact (sch_back c G o X W T Hc HG S A4)|exact A5].
Qed.
Theorem sch_bound c G o x h w r1 : 0 < c -> 0 < G -> 0 < q_val (mo_M o) -> mo_sys o = Sph ->
  MetricModel.sch_cov c G o x = Ok h -> barred_si c (sch_rad c G o) 0 r1 x h w -> (FloatInv.low 0 h w / c) * (FloatInv.low 0 h w / c) < ConvProofs2.norm2 h w ->
  exists r2, forall T, 0 <= T -> exists X W, X 0 = x /\ W 0 = w /\ (forall t, 0 <= t <= T -> locally t (moves (sch_f_vec c G o) X W)) /\ forall t, 0 <= t <= T -> r1 < c1 (X t) < r2.
Proof.
  intros Hc HG HM S E HB H1. rewrite <- (sch_to_kn c G o x S) in E. assert (A : al_of c G (as_kn o) = 0) by (unfold al_of, as_kn; cbn [mo_a q_val]; ring).
  assert (K := kn_bound c G 1 (as_kn o) Hc HG Rlt_0_1 HM eq_refl (as_kn_spin o) eq_refl x h w r1 E). rewrite A in K. destruct (K HB H1) as (r2 & F). exists r2. intros T HT. destruct (F T HT) as (X & W & A2 & A3 & A4 & A5). exists X, W. split; [exact A2|]. split; [exact A3|]. split; [exact (sch_back c G o X W T Hc HG S A4)|exact A5].
Qed.
