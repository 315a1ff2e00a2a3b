(** C127: geodesics around a black hole that a potential barrier keeps away from the horizon exist for all parameter values. *)
From Coq Require Import String Reals List ZArith Lra Lia Bool.
From Coquelicot Require Import Coquelicot.
From Verif Require Import Base Calc DualModel DualSpec DualProofs DualDiff GeoUtilsModel GeoUtilsSpec GeoUtilsProofs GeodesicModel GeodesicProofs CoordModel CoordProofs2 ConvModel ConvProofs
  FantasyModel FantasyProofs FantasyProofs2 FantasyProofs3 FantasyHam FantasyOrder FantasyGlobal FantasyGlobal2 FantasyGlobal3 FantasyShell FantasyCyclic FantasyCircular FloatModel FantasyCarter FloatPlane ProgCont
  MetricModel MetricSpec MetricProofs MetricProofs2 MetricProofs3 MetricHamilton MetricHamilton2 MetricRK Picard PicardProg.
From Verif Require Import Contin.
Import ListNotations.
Open Scope R_scope.

(** solutions of the program for Hamilton's equations *)
Lemma field_hamilton g y t : well_formed g -> field_at 8 (hamP g) y t -> metric_defined g (q4nth (pos (y t))) /\ hamilton g (fun u => pos (y u)) (fun u => vel (y u)) t.
Proof.
  intros Hw H. assert (MD : metric_defined g (q4nth (pos (y t)))).
  { apply (metric_defined_ext g (y t)); [exact Hw|intros i Hi; unfold pos; rewrite q4nth_tab' by exact Hi; reflexivity|]. intros i j Hi Hj.
    destruct (H i ltac:(lia)) as [A _]. unfold hamP in A. destruct (Nat.ltb_spec i 4); [|lia]. unfold sum4E in A. cbn [defined_at] in A. nat4 j Hj; apply A. }
  split; [exact MD|]. intros k K.
  assert (EM : forall e, below 4 e = true -> meaning (y t) e = meaning (q4nth (pos (y t))) e).
  { intros e He. apply (meaning_ext_b 4 _ _ _ He). intros i Hi. unfold pos. rewrite q4nth_tab' by exact Hi. reflexivity. }
  assert (EV : forall b, (b < 4)%nat -> y t (4 + b)%nat = q4nth (vel (y t)) b) by (intros b Hb; unfold vel; rewrite q4nth_tab' by exact Hb; reflexivity).
  split.
  - destruct (H k ltac:(lia)) as [_ A]. apply (is_derive_ext (fun u => y u k)); [intros u; unfold pos; rewrite q4nth_tab' by exact K; reflexivity|].
    eapply D_eq; [exact A|]. rewrite mv_sum by exact K. unfold hamP. destruct (Nat.ltb_spec k 4); [|lia]. rewrite sum4_meaning. apply sum4_ext. intros c Hc. cbn [meaning]. rewrite (EM _ (below4 g Hw k c K Hc)), (EV c Hc). reflexivity.
  - eexists. split; [apply Ham_partial'; [exact Hw|exact MD|exact K]|].
    destruct (H (4 + k)%nat ltac:(lia)) as [_ A]. apply (is_derive_ext (fun u => y u (4 + k)%nat)); [intros u; unfold vel; rewrite q4nth_tab' by exact K; reflexivity|].
    eapply D_eq; [exact A|]. unfold hamP. destruct (Nat.ltb_spec (4 + k) 4); [lia|]. replace (4 + k - 4)%nat with k by lia. cbn [meaning]. rewrite sum4_meaning. f_equal. f_equal. apply sum4_ext. intros b Hb. rewrite sum4_meaning. apply sum4_ext. intros c Hc.
    cbn [meaning]. rewrite (EM _ (pd_below _ _ _ (below4 g Hw b c Hb Hc))), (EV b Hb), (EV c Hc). reflexivity.
Qed.
Lemma solves_geodesic g q0 p0 S y : well_formed g -> solves_to 8 (hamP g) (join q0 p0) S y ->
  pos (y 0) = q0 /\ vel (y 0) = p0 /\ geodesic_on g (fun u => pos (y u)) (fun u => vel (y u)) S.
Proof.
  intros W [E H]. split; [|split].
  - rewrite <- (pos_join q0 p0); apply q4_ext; intros k K; unfold pos; rewrite !q4nth_tab' by exact K; apply E; lia.
  - rewrite <- (vel_join q0 p0); apply q4_ext; intros k K; unfold vel; rewrite !q4nth_tab' by exact K; apply E; lia.
  - intros t Ht. split; [apply field_hamilton; [exact W|apply locally_singleton, H, Ht]|]. generalize (H t Ht). apply filter_imp. intros u Hu. apply field_hamilton; assumption.
Qed.

(** radial potential: Delta^2 p_r^2 along a geodesic with p_t = E, p_phi = L, Carter's constant K and g^ij p_i p_j = H2 *)
Definition radial (a Q E L K H2 r : R) : R := ((r * r + a * a) * E + a * L) * ((r * r + a * a) * E + a * L) - DeltaS r a Q * (K - H2 * (r * r)).

Lemma delta_mono a Q r1 r : 1 <= r1 <= r -> DeltaS r1 a Q <= DeltaS r a Q.
Proof. intros H. unfold DeltaS. assert (0 <= (r - r1) * (r + r1 - 2)) by (apply Rmult_le_pos; lra). lra. Qed.
Lemma sigma_ge r th a : r * r <= SigmaS r th a.
Proof. unfold SigmaS. assert (0 <= a * a * (cos th * cos th)) by (apply Rmult_le_pos; apply Rle_0_sqr). lra. Qed.

(** a continuous function that avoids a value stays on its side *)
Definition clip (S t : R) : R := (Rabs t - Rabs (t - S) + S) / 2.
Lemma clip_in S t : 0 <= S -> 0 <= clip S t <= S.
Proof. intros H. unfold clip. unfold Rabs. destruct (Rcase_abs t), (Rcase_abs (t - S)); lra. Qed.
Lemma clip_id S t : 0 <= t <= S -> clip S t = t.
Proof. intros H. unfold clip. rewrite (Rabs_right t) by lra. rewrite Rabs_left1 by lra. field. Qed.
Lemma clip_cont S t : continuous (clip S) t.
Proof.
  unfold clip. apply (continuous_scal_l (fun t => Rabs t - Rabs (t - S) + S) t (/ 2)) || idtac.
  apply (continuous_mult (fun t => Rabs t - Rabs (t - S) + S) (fun _ => / 2)); [|apply continuous_const].
  apply (continuous_plus (fun t => Rabs t - Rabs (t - S)) (fun _ => S)); [|apply continuous_const].
  apply (continuous_minus (fun t => Rabs t) (fun t => Rabs (t - S))); [apply continuous_Rabs|].
  apply (continuous_comp (fun t => t - S) Rabs); [|apply continuous_Rabs]. apply (continuous_minus (fun t => t) (fun _ => S)); [apply continuous_id|apply continuous_const].
Qed.
Lemma stays_above (f : R -> R) m S : 0 <= S -> (forall t, 0 <= t <= S -> continuous f t) -> (forall t, 0 <= t <= S -> f t <> m) -> m < f 0 -> forall t, 0 <= t <= S -> m < f t.
Proof.
  intros HS Hc Hn H0 t Ht. destruct (Rlt_le_dec m (f t)) as [L0|L0]; [exact L0|exfalso].
  destruct (IVT_gen (fun u => f (clip S u)) 0 t m) as (x & Hx & Ex).
  - intros u. apply continuity_pt_filterlim. apply (continuous_comp (clip S) f); [apply clip_cont|]. apply Hc, clip_in, HS.
  - cbv beta. rewrite !clip_id by lra. unfold Rmin, Rmax. destruct (Rle_dec (f 0) (f t)); lra.
  - apply (Hn (clip S x)); [apply clip_in; exact HS|exact Ex].
Qed.
Lemma stays_below (f : R -> R) m S : 0 <= S -> (forall t, 0 <= t <= S -> continuous f t) -> (forall t, 0 <= t <= S -> f t <> m) -> f 0 < m -> forall t, 0 <= t <= S -> f t < m.
Proof.
  intros HS Hc Hn H0 t Ht. apply Ropp_lt_cancel. apply (stays_above (fun t => - f t) (- m) S); try assumption.
  - intros u Hu. apply (continuous_opp f). apply Hc. exact Hu.
  - intros u Hu E. apply (Hn u Hu). lra.
  - lra.
Qed.
Lemma grows_slowly (f df : R -> R) M S : (forall t, 0 <= t <= S -> is_derive f t (df t)) -> (forall t, 0 <= t <= S -> Rabs (df t) <= M) -> forall t, 0 <= t <= S -> Rabs (f t - f 0) <= M * t.
Proof.
  intros HD HB t Ht. destruct (MVT_gen f 0 t df) as (c & Hc & E).
  - intros u Hu. rewrite Rmin_left, Rmax_right in Hu by lra. apply HD. lra.
  - intros u Hu. rewrite Rmin_left, Rmax_right in Hu by lra. apply continuity_pt_filterlim. eapply D_continuous. apply HD. lra.
  - rewrite Rmin_left, Rmax_right in Hc by lra. rewrite E, Rminus_0_r, Rabs_mult, (Rabs_right t) by lra. apply Rmult_le_compat_r; [lra|]. apply HB. lra.
Qed.

Section Apriori.
Variables (g : metricP) (a Q : R) (q p : R -> V4) (T r1 : R).
Hypothesis Hh : hole g a Q.
Hypothesis I0 : independent_of g 0.
Hypothesis I3 : independent_of g 3.
Hypothesis HG : geodesic_on g q p T.
Hypothesis HT : 0 <= T.
Let E := c0 (p 0).
Let L := c3 (p 0).
Let H2 := 2 * Ham g (q 0) (p 0).
Let K := carter a (q 0) (p 0) H2.
Hypothesis Hr1 : 1 <= r1 < c1 (q 0).
Hypothesis HD1 : 0 < DeltaS r1 a Q.
Hypothesis Hth : 0 < c2 (q 0) < PI.
Hypothesis HL : L <> 0.
Hypothesis Hbar : radial a Q E L K H2 r1 < 0.

Lemma ap_wf : well_formed g. Proof. apply Hh. Qed.
Lemma ap_dom t : 0 <= t <= T -> SigmaS (c1 (q t)) (c2 (q t)) a <> 0 /\ DeltaS (c1 (q t)) a Q <> 0 /\ sin (c2 (q t)) <> 0.
Proof. intros Ht. destruct (HG t Ht) as [D _]. destruct (q t) as [x0 x1 x2 x3] eqn:Eq. exact (proj2 Hh x0 x1 x2 x3 D). Qed.
Lemma ap_consts t : 0 <= t <= T -> c0 (p t) = E /\ c3 (p t) = L /\ 2 * Ham g (q t) (p t) = H2 /\ carter a (q t) (p t) H2 = K.
Proof.
  intros Ht. assert (W := ap_wf). assert (Sy : symmetric_program g) by apply Hh.
  assert (A0 := cyclic_constant g q p T 0 W ltac:(lia) I0 HG t Ht). assert (A3 := cyclic_constant g q p T 3 W ltac:(lia) I3 HG t Ht). cbn [q4nth] in A0, A3.
  assert (AH := shell_constant g q p T W Sy HG t Ht). assert (AC := carter_constant g a Q q p T Hh I0 I3 HG t Ht). rewrite !(carterE_spec a g) in AC by exact W.
  split; [exact A0|]. split; [exact A3|]. assert (AH' : 2 * Ham g (q t) (p t) = H2) by (unfold H2; rewrite AH; reflexivity). split; [exact AH'|]. rewrite AH' in AC. exact AC.
Qed.
(** Delta^2 p_r^2 is the radial potential *)
Lemma ap_radial t : 0 <= t <= T -> (DeltaS (c1 (q t)) a Q * c1 (p t)) * (DeltaS (c1 (q t)) a Q * c1 (p t)) = radial a Q E L K H2 (c1 (q t)).
Proof.
  intros Ht. destruct (ap_consts t Ht) as (A0 & A3 & AH & AC). destruct (ap_dom t Ht) as (HS & HD & Hs). destruct (HG t Ht) as [D _].
  rewrite (hole_ham g a Q Hh _ _ D), kn_separated in AH by assumption. unfold carter in AC. rewrite A0, A3 in AH, AC. unfold radial. rewrite <- AC.
  set (X := a * sin (c2 (q t)) * E + L / sin (c2 (q t))) in *. set (P := (c1 (q t) * c1 (q t) + a * a) * E + a * L) in *. set (Dl := DeltaS (c1 (q t)) a Q) in *.
  assert (EH : H2 * SigmaS (c1 (q t)) (c2 (q t)) a = Dl * (c1 (p t) * c1 (p t)) - P * P / Dl + c2 (p t) * c2 (p t) + X * X) by (rewrite <- AH; field; split; assumption).
  unfold SigmaS in EH. assert (EH2 : Dl * (H2 * (c1 (q t) * c1 (q t) + a * a * (cos (c2 (q t)) * cos (c2 (q t))))) = Dl * Dl * (c1 (p t) * c1 (p t)) - P * P + Dl * (c2 (p t) * c2 (p t) + X * X)) by (rewrite EH; field; exact HD).
  lra.
Qed.
Lemma ap_deriv t k : 0 <= t <= T -> (k < 4)%nat -> is_derive (fun u => q4nth (q u) k) t (q4nth (mv (kn_con a Q (c1 (q t)) (c2 (q t))) (p t)) k).
Proof.
  intros Ht Hk. destruct (HG t Ht) as [D H]. apply locally_singleton in H. destruct (H k Hk) as [A _]. destruct (ap_dom t Ht) as (HS & HD & Hs).
  assert (EM : metric_meaning g (q4nth (q t)) = kn_con a Q (c1 (q t)) (c2 (q t))). { destruct (q t) as [x0 x1 x2 x3]. apply (proj2 (proj2 (proj1 Hh))); assumption. }
  rewrite <- EM. exact A.
Qed.
Lemma ap_cont t k : 0 <= t <= T -> (k < 4)%nat -> continuous (fun u => q4nth (q u) k) t.
Proof. intros Ht Hk. eapply D_continuous. apply ap_deriv; assumption. Qed.
(** the barrier keeps r above r1 *)
Lemma ap_r t : 0 <= t <= T -> r1 < c1 (q t).
Proof.
  intros Ht. apply (stays_above (fun u => c1 (q u)) r1 T HT); [intros u Hu; apply (ap_cont u 1 Hu); lia| |apply Hr1|exact Ht].
  intros u Hu E0. assert (R := ap_radial u Hu). cbv beta in E0. rewrite E0 in R. assert (Z := Rle_0_sqr (DeltaS r1 a Q * c1 (p u))). unfold Rsqr in Z. lra.
Qed.
(** the bounds hold as long as r stays above r1 *)
Hypothesis Hab : forall t, 0 <= t <= T -> r1 < c1 (q t).
Lemma ap_delta t : 0 <= t <= T -> DeltaS r1 a Q <= DeltaS (c1 (q t)) a Q.
Proof. intros Ht. apply delta_mono. assert (A := Hab t Ht). lra. Qed.
Lemma ap_th t : 0 <= t <= T -> 0 < c2 (q t) < PI.
Proof.
  intros Ht. split.
  - apply (stays_above (fun u => c2 (q u)) 0 T HT); [intros u Hu; apply (ap_cont u 2 Hu); lia| |apply Hth|exact Ht]. intros u Hu E0. destruct (ap_dom u Hu) as (_ & _ & Hs). apply Hs. cbv beta in E0. rewrite E0. apply sin_0.
  - apply (stays_below (fun u => c2 (q u)) PI T HT); [intros u Hu; apply (ap_cont u 2 Hu); lia| |apply Hth|exact Ht]. intros u Hu E0. destruct (ap_dom u Hu) as (_ & _ & Hs). apply Hs. cbv beta in E0. rewrite E0. apply sin_PI.
Qed.
(** bounds *)
Definition ap_B : R := Rabs K + a * a * Rabs H2 + 1.
Lemma ap_theta t : 0 <= t <= T -> c2 (p t) * c2 (p t) <= ap_B /\ (a * sin (c2 (q t)) * E + L / sin (c2 (q t))) * (a * sin (c2 (q t)) * E + L / sin (c2 (q t))) <= ap_B.
Proof.
  intros Ht. destruct (ap_consts t Ht) as (A0 & A3 & _ & AC). unfold carter in AC. rewrite A0, A3 in AC.
  assert (B : c2 (p t) * c2 (p t) + (a * sin (c2 (q t)) * E + L / sin (c2 (q t))) * (a * sin (c2 (q t)) * E + L / sin (c2 (q t))) <= ap_B).
  { unfold ap_B. assert (Z1 := Rle_abs K). assert (Z2 := Rle_abs H2). assert (C := COS_bound (c2 (q t))). assert (C2 : 0 <= cos (c2 (q t)) * cos (c2 (q t)) <= 1) by nra. assert (A2 : 0 <= a * a) by apply Rle_0_sqr. assert (P := Rabs_pos H2).
    assert (Z3 : a * a * (cos (c2 (q t)) * cos (c2 (q t))) * H2 <= a * a * 1 * Rabs H2) by (apply Rle_trans with (a * a * (cos (c2 (q t)) * cos (c2 (q t))) * Rabs H2); [apply Rmult_le_compat_l; [apply Rmult_le_pos; lra|lra]|apply Rmult_le_compat_r; [lra|apply Rmult_le_compat_l; lra]]). lra. }
  assert (Z1 := Rle_0_sqr (c2 (p t))). assert (Z2 := Rle_0_sqr (a * sin (c2 (q t)) * E + L / sin (c2 (q t)))). unfold Rsqr in Z1, Z2. lra.
Qed.
Definition ap_s : R := Rabs L / (ap_B + 1 + Rabs (a * E) + Rabs L).
Lemma ap_Bpos : 1 <= ap_B.
Proof. unfold ap_B. assert (A2 : 0 <= a * a) by apply Rle_0_sqr. assert (P := Rabs_pos H2). assert (P' := Rabs_pos K). assert (0 <= a * a * Rabs H2) by (apply Rmult_le_pos; assumption). lra. Qed.
Lemma ap_spos : 0 < ap_s < 1.
Proof.
  assert (B := ap_Bpos). assert (P := Rabs_pos_lt L HL). assert (P2 := Rabs_pos (a * E)). unfold ap_s. split; [apply Rdiv_lt_0_compat; lra|].
  apply Rmult_lt_reg_r with (ap_B + 1 + Rabs (a * E) + Rabs L); [lra|]. unfold Rdiv. rewrite Rmult_assoc, Rinv_l by lra. lra.
Qed.
Lemma sq_le x B : 1 <= B -> x * x <= B -> Rabs x <= B.
Proof. intros HB Hx. apply Rabs_le. split; nra. Qed.
Lemma ap_sin t : 0 <= t <= T -> ap_s <= sin (c2 (q t)).
Proof.
  intros Ht. assert (Sp : 0 < sin (c2 (q t))) by (apply sin_gt_0; apply ap_th; exact Ht). assert (S1 := SIN_bound (c2 (q t))). destruct (ap_theta t Ht) as [_ B]. apply (sq_le _ _ ap_Bpos) in B.
  set (s := sin (c2 (q t))) in *. assert (LS : Rabs (L / s) <= ap_B + Rabs (a * E)).
  { replace (L / s) with ((a * s * E + L / s) - s * (a * E)) by ring. eapply Rle_trans; [apply Rabs_triang|]. rewrite Rabs_Ropp, (Rabs_mult s), (Rabs_right s) by lra. assert (P2 := Rabs_pos (a * E)). nra. }
  unfold Rdiv in LS. rewrite Rabs_mult, (Rabs_right (/ s)) in LS by (left; apply Rinv_0_lt_compat; exact Sp).
  assert (B1 := ap_Bpos). assert (P := Rabs_pos_lt L HL). assert (P2 := Rabs_pos (a * E)).
  unfold ap_s. apply Rmult_le_reg_r with (ap_B + 1 + Rabs (a * E) + Rabs L); [lra|]. unfold Rdiv. rewrite Rmult_assoc, Rinv_l, Rmult_1_r by lra.
  apply (Rmult_le_compat_l s) in LS; [|lra]. replace (s * (Rabs L * / s)) with (Rabs L) in LS by (field; lra). nra.
Qed.
(** the radius grows at most linearly *)
Definition ap_V : R := (1 + a * a) * Rabs E + Rabs (a * L) + (1 + a * a + Q * Q) * (Rabs K + Rabs H2) + 1.
Lemma ap_Vpos : 1 <= ap_V.
Proof.
  unfold ap_V. assert (A2 : 0 <= a * a) by apply Rle_0_sqr. assert (Q2 : 0 <= Q * Q) by apply Rle_0_sqr. assert (0 <= (1 + a * a) * Rabs E) by (apply Rmult_le_pos; [lra|apply Rabs_pos]). assert (P := Rabs_pos (a * L)).
  assert (0 <= (1 + a * a + Q * Q) * (Rabs K + Rabs H2)) by (apply Rmult_le_pos; [lra|generalize (Rabs_pos K) (Rabs_pos H2); lra]). lra.
Qed.
Lemma radial_bound r : 1 <= r -> 0 <= DeltaS r a Q -> radial a Q E L K H2 r <= (r * r * ap_V) * (r * r * ap_V).
Proof.
  intros Hr HD. assert (A2 : 0 <= a * a) by apply Rle_0_sqr. assert (Q2 : 0 <= Q * Q) by apply Rle_0_sqr. assert (R2 : 1 <= r * r) by nra.
  set (X := (1 + a * a) * Rabs E + Rabs (a * L)). set (Y := (1 + a * a + Q * Q) * (Rabs K + Rabs H2)).
  assert (X0 : 0 <= X) by (unfold X; apply Rplus_le_le_0_compat; [apply Rmult_le_pos; [lra|apply Rabs_pos]|apply Rabs_pos]).
  assert (Y0 : 0 <= Y) by (unfold Y; apply Rmult_le_pos; [lra|generalize (Rabs_pos K) (Rabs_pos H2); lra]).
  assert (P1 : Rabs ((r * r + a * a) * E + a * L) <= r * r * X).
  { eapply Rle_trans; [apply Rabs_triang|]. rewrite Rabs_mult, (Rabs_right (r * r + a * a)) by lra. unfold X. assert (PE := Rabs_pos E). assert (PL := Rabs_pos (a * L)).
    assert (Z1 : (r * r + a * a) * Rabs E <= r * r * ((1 + a * a) * Rabs E)). { rewrite <- Rmult_assoc. apply Rmult_le_compat_r; [exact PE|]. nra. } assert (Z2 : Rabs (a * L) <= r * r * Rabs (a * L)) by nra. lra. }
  assert (P2 : ((r * r + a * a) * E + a * L) * ((r * r + a * a) * E + a * L) <= (r * r * X) * (r * r * X)).
  { replace (((r * r + a * a) * E + a * L) * ((r * r + a * a) * E + a * L)) with (Rabs ((r * r + a * a) * E + a * L) * Rabs ((r * r + a * a) * E + a * L)) by (rewrite <- Rabs_mult; apply Rabs_right, Rle_ge, Rle_0_sqr). apply Rmult_le_compat; try apply Rabs_pos; exact P1. }
  assert (P3 : - (DeltaS r a Q * (K - H2 * (r * r))) <= (r * r) * (r * r) * Y).
  { assert (D1 : DeltaS r a Q <= r * r * (1 + a * a + Q * Q)) by (unfold DeltaS; nra).
    assert (K1 : - (K - H2 * (r * r)) <= r * r * (Rabs K + Rabs H2)). { assert (Z1 := Rle_abs (- K)). rewrite Rabs_Ropp in Z1. assert (Z2 := Rle_abs H2). assert (Z3 := Rabs_pos K). nra. }
    assert (KP : 0 <= r * r * (Rabs K + Rabs H2)) by (apply Rmult_le_pos; [lra|generalize (Rabs_pos K) (Rabs_pos H2); lra]).
    replace (- (DeltaS r a Q * (K - H2 * (r * r)))) with (DeltaS r a Q * - (K - H2 * (r * r))) by ring.
    apply Rle_trans with (DeltaS r a Q * (r * r * (Rabs K + Rabs H2))); [apply Rmult_le_compat_l; assumption|]. unfold Y.
    replace (r * r * (r * r) * ((1 + a * a + Q * Q) * (Rabs K + Rabs H2))) with ((r * r * (1 + a * a + Q * Q)) * (r * r * (Rabs K + Rabs H2))) by ring. apply Rmult_le_compat_r; assumption. }
  unfold radial. apply Rle_trans with ((r * r) * (r * r) * (X * X + Y)); [lra|]. unfold ap_V. fold X Y. replace ((r * r * (X + Y + 1)) * (r * r * (X + Y + 1))) with ((r * r) * (r * r) * ((X + Y + 1) * (X + Y + 1))) by ring.
  apply Rmult_le_compat_l; [nra|]. nra.
Qed.
Lemma ap_pr t : 0 <= t <= T -> Rabs (DeltaS (c1 (q t)) a Q * c1 (p t)) <= c1 (q t) * c1 (q t) * ap_V.
Proof.
  intros Ht. assert (R := ap_radial t Ht). assert (Hr := Hab t Ht). assert (D := ap_delta t Ht). assert (B := radial_bound (c1 (q t)) ltac:(lra) ltac:(lra)). rewrite <- R in B.
  assert (V := ap_Vpos). assert (0 <= c1 (q t) * c1 (q t) * ap_V) by (apply Rmult_le_pos; nra). apply Rsqr_le_abs_0 in B. rewrite (Rabs_right (c1 (q t) * c1 (q t) * ap_V)) in B by lra. exact B.
Qed.
Lemma ap_grow t : 0 <= t <= T -> c1 (q t) <= c1 (q 0) + ap_V * t.
Proof.
  intros Ht. assert (G := grows_slowly (fun u => c1 (q u)) (fun u => c1 (mv (kn_con a Q (c1 (q u)) (c2 (q u))) (p u))) ap_V T). cbv beta in G.
  assert (A : Rabs (c1 (q t) - c1 (q 0)) <= ap_V * t); [|apply Rabs_le_between in A; lra]. apply G; [intros u Hu; apply (ap_deriv u 1 Hu); lia| |exact Ht].
  intros u Hu. assert (B := ap_pr u Hu). assert (Hr := Hab u Hu). assert (SG := sigma_ge (c1 (q u)) (c2 (q u)) a). assert (R2 : 1 <= c1 (q u) * c1 (q u)) by nra.
  assert (EV : c1 (mv (kn_con a Q (c1 (q u)) (c2 (q u))) (p u)) = DeltaS (c1 (q u)) a Q * c1 (p u) / SigmaS (c1 (q u)) (c2 (q u)) a).
  { destruct (p u) as [P0 P1 P2 P3]. unfold kn_con, mv, dot. cbv zeta. cbn [q4map q4nth c0 c1 c2 c3]. field. lra. }
  rewrite EV. unfold Rdiv. rewrite Rabs_mult, (Rabs_right (/ _)) by (left; apply Rinv_0_lt_compat; lra). apply Rmult_le_reg_r with (SigmaS (c1 (q u)) (c2 (q u)) a); [lra|].
  rewrite Rmult_assoc, Rinv_l, Rmult_1_r by lra. apply Rle_trans with (1 := B). rewrite (Rmult_comm ap_V). apply Rmult_le_compat_r; [generalize ap_Vpos; lra|exact SG].
Qed.
End Apriori.
