(** Carter's constant and the angular momentum vector along the motions of the numeric metric classes. *)
From Coq Require Import String Reals List ZArith Lra Lia Bool.
From Coquelicot Require Import Coquelicot.
From Verif Require Import Base Calc DualModel DualSpec DualProofs DualDiff GeoUtilsModel GeoUtilsSpec GeoUtilsProofs GeodesicModel GeodesicProofs CoordModel CoordProofs2 ConvModel ConvProofs ConvProofs2
  FantasyModel FantasyProofs FantasyProofs2 FantasyProofs3 FantasyHam FantasyOrder FantasyGlobal3 FantasyCircular FloatModel FantasyCarter FloatCarter FloatPlane
  MetricModel MetricSpec MetricProofs MetricProofs2 MetricProofs3 MetricProofs4 MetricProofs5 MetricProofs6 MetricProofs7 MetricUnify MetricHamilton MetricHamilton2 FloatInv.
Import ListNotations.
Open Scope R_scope.

(** Carter's quantity in SI units: x position (t, r, theta, phi), g the metric (signature + - - -) there, v the velocity, al = a G M / c^2 *)
Definition carter_si (c al : R) (x : V4) (g : M4) (v : V4) : R :=
  let B := al * sin (c2 x) * low 0 g v / c + low 3 g v / sin (c2 x) in
  low 2 g v * low 2 g v + B * B + al * al * (cos (c2 x) * cos (c2 x)) * ConvProofs2.norm2 g v.
(** Cartesian components of the angular momentum per unit mass (up to sign) *)
Definition Lx_si (x : V4) (g : M4) (v : V4) : R := - (sin (c3 x) * low 2 g v) - cos (c3 x) * (cos (c2 x) / sin (c2 x)) * low 3 g v.
Definition Ly_si (x : V4) (g : M4) (v : V4) : R := cos (c3 x) * low 2 g v - sin (c3 x) * (cos (c2 x) / sin (c2 x)) * low 3 g v.

Section Unit.
Variables (c G Cc : R) (o : mobj) (g : metricP).
Hypothesis Hc : 0 < c.
Hypothesis HG : 0 < G.
Hypothesis HC : 0 < Cc.
Hypothesis HM : q_val (mo_M o) <> 0.
Hypothesis Hsys : mo_sys o = BL.
Hypothesis Hspin : valid_spin o.
Hypothesis Hg : is_kn g (q_val (mo_a o)) 0.
Let a := q_val (mo_a o).
Let m := grav_radius c G o.
Let kap := - (m * m).
Let up := unit_point c G o.
Let um := unit_momentum c G Cc o.
Lemma um_nth x w h k : MetricModel.kn_cov c G Cc o x = Ok h -> (k < 4)%nat -> q4nth (um x w) k = q4nth (si c G o) k / kap * low k h w.
Proof. intros E Hk. unfold um, unit_momentum. rewrite q4nth_tab' by exact Hk. rewrite E. reflexivity. Qed.
Lemma up_ang x : c2 (up x) = c2 x /\ c3 (up x) = c3 x.
Proof. unfold up, unit_point, q4tab, si. cbn [q4nth c0 c1 c2 c3]. split; unfold Rdiv; rewrite Rinv_1; ring. Qed.
Lemma um_ham x w h : MetricModel.kn_cov c G Cc o x = Ok h -> chart a (up x) -> 2 * Ham g (up x) (um x w) = ConvProofs2.norm2 h w / kap.
Proof.
  intros E Hd. assert (K := kap_nz c G o Hc HG HM). fold m kap in K. assert (SN := si_nz c G o Hc HG HM).
  assert (V := velocity_unit c G Cc o g Hc HG HM Hsys Hspin Hg x w Hd). fold up um in V.
  assert (W : forall k, (k < 4)%nat -> q4nth (mv (metric_meaning g (q4nth (up x))) (um x w)) k = q4nth w k / q4nth (si c G o) k).
  { intros k Hk. rewrite <- V at 2. unfold si_velocity. rewrite scaled_nth by exact Hk. field. apply SN. exact Hk. }
  unfold Ham, quad. set (U := um x w) in *.
  assert (P := fun k Hk => um_nth x w h k E Hk). fold U in P. set (Y := mv (metric_meaning g (q4nth (up x))) U) in *. clearbody Y.
  assert (P0 := P 0%nat ltac:(lia)). assert (P1 := P 1%nat ltac:(lia)). assert (P2 := P 2%nat ltac:(lia)). assert (P3 := P 3%nat ltac:(lia)).
  assert (W0 := W 0%nat ltac:(lia)). assert (W1 := W 1%nat ltac:(lia)). assert (W2 := W 2%nat ltac:(lia)). assert (W3 := W 3%nat ltac:(lia)).
  clearbody U. clear P W V. assert (S0 := SN 0%nat ltac:(lia)). assert (S1 := SN 1%nat ltac:(lia)). assert (S2 := SN 2%nat ltac:(lia)). assert (S3 := SN 3%nat ltac:(lia)). clear SN.
  destruct Y as [y0 y1 y2 y3], U as [u0 u1 u2 u3], (si c G o) as [s0 s1 s2 s3]. cbn [q4nth c0 c1 c2 c3] in *. subst. unfold dot. cbn [c0 c1 c2 c3].
  clear E. destruct w as [w0 w1 w2 w3], h as [[] [] [] []]. unfold ConvProofs2.norm2, low, sum4, mv, mnth, dot. cbn. unfold dot. cbn. field. repeat split; assumption.
Qed.
Lemma um_carter x w h : MetricModel.kn_cov c G Cc o x = Ok h -> chart a (up x) ->
  carter a (up x) (um x w) (2 * Ham g (up x) (um x w)) = carter_si c (al_of c G o) x h w / (kap * kap).
Proof.
  intros E Hd. rewrite (um_ham x w h E Hd). assert (K := kap_nz c G o Hc HG HM). fold m kap in K. assert (M := m_nz c G o Hc HG HM). fold m in M.
  destruct (up_ang x) as [A2 _]. assert (Hs : sin (c2 x) <> 0) by (rewrite <- A2; apply Hd). unfold carter, carter_si. rewrite A2.
  assert (P0 := um_nth x w h 0 E ltac:(lia)). assert (P2 := um_nth x w h 2 E ltac:(lia)). assert (P3 := um_nth x w h 3 E ltac:(lia)). unfold si in P0, P2, P3. cbn [q4nth c0 c1 c2 c3] in P0, P2, P3. fold m in P0.
  rewrite P0, P2, P3. replace (al_of c G o) with (m * a) by (unfold al_of, m, grav_radius, a; ring). cbv zeta.
  generalize (low 0 h w) (low 2 h w) (low 3 h w) (ConvProofs2.norm2 h w). intros l0 l2 l3 n. unfold kap in *. field. repeat split; try assumption. lra.
Qed.
Lemma um_L x w h : MetricModel.kn_cov c G Cc o x = Ok h -> Lx (up x) (um x w) = Lx_si x h w / kap /\ Ly (up x) (um x w) = Ly_si x h w / kap.
Proof.
  intros E. destruct (up_ang x) as [A2 A3]. unfold Lx, Ly, Lx_si, Ly_si. rewrite A2, A3.
  assert (P2 := um_nth x w h 2 E ltac:(lia)). assert (P3 := um_nth x w h 3 E ltac:(lia)). unfold si in P2, P3. cbn [q4nth c0 c1 c2 c3] in P2, P3. rewrite P2, P3. unfold Rdiv. split; ring.
Qed.
Lemma on_unit X W T : q_val (mo_q o) = 0 -> (forall t, 0 <= t <= T -> locally t (moves (kn_f_vec c G Cc o) X W)) ->
  geodesic_on g (fun u => up (X u)) (fun u => um (X u) (W u)) T /\ forall t, 0 <= t <= T -> chart a (up (X t)).
Proof.
  intros Hq HL. split.
  - intros t Ht. split.
    + apply (proj1 (hole_same c G Cc o g Hc HG HM Hsys Hspin Hg)). eapply (moves_chart c G Cc o); try eassumption. apply (locally_singleton _ _ (HL t Ht)).
    + generalize (locally_locally _ _ (HL t Ht)). apply filter_imp. intros u Hu. apply (moves_hamilton c G Cc o g); assumption.
  - intros t Ht. eapply (moves_chart c G Cc o); try eassumption. apply (locally_singleton _ _ (HL t Ht)).
Qed.
End Unit.

Theorem kn_carter_constant c G Cc o X W T : 0 < c -> 0 < G -> 0 < Cc -> q_val (mo_M o) <> 0 -> mo_sys o = BL -> valid_spin o -> q_val (mo_q o) = 0 ->
  (forall t, 0 <= t <= T -> locally t (moves (kn_f_vec c G Cc o) X W)) ->
  forall t h0 h, 0 <= t <= T -> MetricModel.kn_cov c G Cc o (X 0) = Ok h0 -> MetricModel.kn_cov c G Cc o (X t) = Ok h ->
  carter_si c (al_of c G o) (X t) h (W t) = carter_si c (al_of c G o) (X 0) h0 (W 0).
Proof.
  intros Hc HG HC HM Hs Hv Hq HL t h0 h Ht E0 E. set (a := q_val (mo_a o)).
  destruct (named_hole_spec _ _ _ _ (nh_kerr a [])) as (_ & _ & _ & I0 & I3). assert (Hh := hole_kerr a). assert (Hg := proj1 Hh).
  destruct (on_unit c G Cc o (kerrE a) Hc HG HC HM Hs Hv Hg X W T Hq HL) as (GO & Ch).
  assert (C := carter_constant (kerrE a) a 0 _ _ T Hh I0 I3 GO t Ht). assert (WF : well_formed (kerrE a)) by apply Hg. rewrite !(carterE_spec a (kerrE a)) in C by exact WF. cbv beta in C.
  rewrite (um_carter c G Cc o (kerrE a) Hc HG HM Hs Hv Hg _ _ h E (Ch t Ht)) in C.
  rewrite (um_carter c G Cc o (kerrE a) Hc HG HM Hs Hv Hg _ _ h0 E0) in C by (apply Ch; lra).
  assert (K := kap_nz c G o Hc HG HM). set (k := - (grav_radius c G o * grav_radius c G o)) in *. apply Rmult_eq_reg_r with (/ (k * k)); [exact C|].
  apply Rinv_neq_0_compat, Rmult_integral_contrapositive_currified; exact K.
Qed.
(** without spin the whole angular momentum vector is constant *)
Theorem kn_angular_constant c G Cc o X W T : 0 < c -> 0 < G -> 0 < Cc -> q_val (mo_M o) <> 0 -> mo_sys o = BL -> q_val (mo_a o) = 0 -> q_val (mo_q o) = 0 ->
  (forall t, 0 <= t <= T -> locally t (moves (kn_f_vec c G Cc o) X W)) ->
  forall t h0 h, 0 <= t <= T -> MetricModel.kn_cov c G Cc o (X 0) = Ok h0 -> MetricModel.kn_cov c G Cc o (X t) = Ok h ->
  Lx_si (X t) h (W t) = Lx_si (X 0) h0 (W 0) /\ Ly_si (X t) h (W t) = Ly_si (X 0) h0 (W 0) /\ low 3 h (W t) = low 3 h0 (W 0).
Proof.
  intros Hc HG HC HM Hs Ha Hq HL t h0 h Ht E0 E. assert (Hv : valid_spin o) by (unfold valid_spin; rewrite Ha; lra).
  assert (Hg : is_kn schE (q_val (mo_a o)) 0) by (rewrite Ha; exact (proj1 hole_sch)).
  destruct (on_unit c G Cc o schE Hc HG HC HM Hs Hv Hg X W T Hq HL) as (GO & Ch).
  destruct (L_exact "Schwarzschild" [] schE _ _ T (nh_sch []) GO t Ht) as (C1 & C2 & C3). cbv beta in C1, C2, C3.
  assert (K := kap_nz c G o Hc HG HM). set (k := - (grav_radius c G o * grav_radius c G o)) in *.
  destruct (um_L c G Cc o (X t) (W t) h E) as (A1 & A2). destruct (um_L c G Cc o (X 0) (W 0) h0 E0) as (B1 & B2). fold k in A1, A2, B1, B2. rewrite A1, B1 in C1. rewrite A2, B2 in C2.
  assert (A3 := um_nth c G Cc o (X t) (W t) h 3 E ltac:(lia)). assert (B3 := um_nth c G Cc o (X 0) (W 0) h0 3 E0 ltac:(lia)). fold k in A3, B3. unfold si in A3, B3. cbn [q4nth] in A3, B3. rewrite A3, B3 in C3. cbn [c3] in C3.
  assert (Z : forall x y, x / k = y / k -> x = y) by (intros x y Exy; apply Rmult_eq_reg_r with (/ k); [exact Exy|apply Rinv_neq_0_compat; exact K]).
  split; [apply Z; exact C1|]. split; [apply Z; exact C2|]. apply Z. unfold Rdiv in *. lra.
Qed.
Lemma sch_to_kn c G o x : mo_sys o = Sph -> MetricModel.kn_cov c G 1 (as_kn o) x = MetricModel.sch_cov c G o x.
Proof. intros S. apply (spinless_metric c G 1 (as_kn o) o x eq_refl S eq_refl eq_refl). Qed.
Theorem sch_angular_constant c G o X W T : 0 < c -> 0 < G -> q_val (mo_M o) <> 0 -> mo_sys o = Sph ->
  (forall t, 0 <= t <= T -> locally t (moves (sch_f_vec c G o) X W)) ->
  forall t h0 h, 0 <= t <= T -> MetricModel.sch_cov c G o (X 0) = Ok h0 -> MetricModel.sch_cov c G o (X t) = Ok h ->
  Lx_si (X t) h (W t) = Lx_si (X 0) h0 (W 0) /\ Ly_si (X t) h (W t) = Ly_si (X 0) h0 (W 0) /\ low 3 h (W t) = low 3 h0 (W 0).
Proof.
  intros Hc HG HM Hs HL t h0 h Ht E0 E. rewrite <- (sch_to_kn c G o _ Hs) in E0. rewrite <- (sch_to_kn c G o _ Hs) in E.
  apply (kn_angular_constant c G 1 (as_kn o) X W T Hc HG Rlt_0_1 HM eq_refl eq_refl eq_refl) with (t := t) (h0 := h0) (h := h); try assumption.
  intros s Hs'. generalize (HL s Hs'). apply filter_imp. intros u Hu. apply (sch_moves c G o X W u Hc HG Hs). exact Hu.
Qed.
(** the motion therefore stays in the plane through the centre perpendicular to the angular momentum *)
Lemma ray_perp_si x h w : sin (c2 x) <> 0 -> let '(a, b, d) := ray x in a * Lx_si x h w + b * Ly_si x h w + d * low 3 h w = 0.
Proof.
  intros Hs. assert (R := ray_perp x (mkQ4 0 0 (low 2 h w) (low 3 h w)) Hs). exact R.
Qed.
