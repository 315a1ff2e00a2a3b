(** C130: the fate of a body released outside a black hole: captured, scattered or bound, by the sign of the radial potential. *)
From Coq Require Import String Reals List ZArith Lra Lia Bool.
From Coquelicot Require Import Coquelicot.
From Verif Require Import Base Calc DualModel DualSpec DualProofs DualDiff GeoUtilsModel GeoUtilsSpec GeoUtilsProofs GeodesicModel GeodesicProofs CoordModel CoordProofs2 ConvModel ConvProofs
  FantasyModel FantasyProofs FantasyProofs2 FantasyProofs3 FantasyHam FantasyOrder FantasyGlobal FantasyGlobal2 FantasyGlobal3 FantasyShell FantasyCyclic FantasyCircular FloatModel FantasyCarter FloatPlane ProgCont
  MetricModel MetricSpec MetricProofs MetricProofs2 MetricProofs3 MetricHamilton MetricHamilton2 MetricRK Picard PicardProg.
From Verif Require Import Contin Leave GlobalHole GlobalHole2 GlobalMotion.
Import ListNotations.
Open Scope R_scope.

(** released outside r1, itself outside the horizon, off the axis *)
Definition exterior (a Q r1 : R) (q0 p0 : V4) : Prop := 1 <= r1 < c1 q0 /\ 0 < r1 * r1 - 2 * r1 + a * a + Q * Q /\ 0 < c2 q0 < PI /\ c3 p0 <> 0.
Definition potential (g : metricP) (a Q : R) (q0 p0 : V4) (r : R) : R := radial a Q (c0 p0) (c3 p0) (carter a q0 p0 (2 * Ham g q0 p0)) (2 * Ham g q0 p0) r.

Lemma mvt (f df : R -> R) u v : u <= v -> (forall t, u <= t <= v -> is_derive f t (df t)) -> exists c, u <= c <= v /\ f v - f u = df c * (v - u).
Proof.
  intros Huv H. destruct (MVT_gen f u v df) as (c & Hc & E).
  - intros x Hx. rewrite Rmin_left, Rmax_right in Hx by lra. apply H. lra.
  - intros x Hx. rewrite Rmin_left, Rmax_right in Hx by lra. apply continuity_pt_filterlim. eapply D_continuous. apply H. lra.
  - rewrite Rmin_left, Rmax_right in Hc by lra. exists c. split; assumption.
Qed.
Lemma radial_continuous a Q E L K m r : continuity_pt (radial a Q E L K m) r.
Proof. apply continuity_pt_filterlim. apply (ex_derive_continuous (fun r => radial a Q E L K m r) r). unfold radial, DeltaS. auto_derive. exact Logic.I. Qed.
Lemma radial_min a Q E L K m x y : x <= y -> (forall r, x <= r <= y -> 0 < radial a Q E L K m r) -> exists b, 0 < b /\ forall r, x <= r <= y -> b * b <= radial a Q E L K m r.
Proof.
  intros Hxy H. destruct (continuity_ab_min (radial a Q E L K m) x y Hxy (fun c _ => radial_continuous _ _ _ _ _ _ c)) as (c & Hm & Hc).
  assert (P := H c Hc). exists (sqrt (radial a Q E L K m c)). split; [apply sqrt_lt_R0; exact P|]. intros r Hr. rewrite sqrt_sqrt by lra. apply Hm. exact Hr.
Qed.

(** far out, the potential is (E^2 + m) r^4 up to a cubic term *)
Definition cub (a Q E L K m : R) : R := let A := a * a * E + a * L in let D := a * a + Q * Q in 2 * Rabs m + Rabs (2 * A * E - K + D * m) + 2 * Rabs K + Rabs (A * A - D * K).
Lemma radial_far a Q E L K m r : 1 <= r -> Rabs (radial a Q E L K m r - (E * E + m) * (r * r * (r * r))) <= cub a Q E L K m * (r * r * r).
Proof.
  intros Hr. unfold cub. cbv zeta. set (A := a * a * E + a * L). set (D := a * a + Q * Q). set (B := 2 * A * E - K + D * m). set (C := A * A - D * K).
  replace (radial a Q E L K m r - (E * E + m) * (r * r * (r * r))) with (- (2 * m) * (r * r * r) + B * (r * r) + 2 * K * r + C) by (unfold radial, DeltaS, B, C, A, D; ring).
  assert (R2 : 1 <= r * r) by nra. assert (R3 : r * r <= r * r * r) by nra. assert (R4 : r <= r * r * r) by nra. assert (R5 : 1 <= r * r * r) by lra.
  assert (Z1 : Rabs (- (2 * m) * (r * r * r)) = 2 * Rabs m * (r * r * r)) by (rewrite !Rabs_mult, Rabs_Ropp, !Rabs_mult, !(Rabs_right r), (Rabs_right 2) by lra; ring).
  assert (Z2 : Rabs (B * (r * r)) <= Rabs B * (r * r * r)) by (rewrite Rabs_mult, (Rabs_right (r * r)) by lra; apply Rmult_le_compat_l; [apply Rabs_pos|exact R3]).
  assert (Z3 : Rabs (2 * K * r) <= 2 * Rabs K * (r * r * r)) by (rewrite !Rabs_mult, (Rabs_right r), (Rabs_right 2) by lra; apply Rmult_le_compat_l; [generalize (Rabs_pos K); lra|exact R4]).
  assert (Z4 : Rabs C <= Rabs C * (r * r * r)) by (generalize (Rabs_pos C); intros PC; nra).
  eapply Rle_trans; [apply Rabs_triang|]. eapply Rle_trans; [apply Rplus_le_compat_r, Rabs_triang|]. eapply Rle_trans; [apply Rplus_le_compat_r, Rplus_le_compat_r, Rabs_triang|]. rewrite Z1. lra.
Qed.
Lemma cub_pos a Q E L K m : 0 <= cub a Q E L K m.
Proof. unfold cub. cbv zeta. repeat apply Rplus_le_le_0_compat; try apply Rabs_pos; apply Rmult_le_pos; try apply Rabs_pos; lra. Qed.
Lemma radial_neg a Q E L K m : E * E + m < 0 -> forall x, exists y, x < y /\ radial a Q E L K m y < 0.
Proof.
  intros He x. set (C := cub a Q E L K m). assert (PC : 0 <= C) by apply cub_pos. set (e := - (E * E + m)). assert (Pe : 0 < e) by (unfold e; lra).
  set (y := Rmax (x + 1) (C / e + 1)). assert (Y1 := Rmax_l (x + 1) (C / e + 1)). assert (Y2 := Rmax_r (x + 1) (C / e + 1)). fold y in Y1, Y2. exists y. split; [lra|].
  assert (CE : 0 <= C / e) by (apply Rmult_le_pos; [exact PC|left; apply Rinv_0_lt_compat; exact Pe]). assert (H := radial_far a Q E L K m y ltac:(lra)). fold C in H. apply Rabs_le_between in H.
  assert (Ey : C < e * y). { apply Rlt_le_trans with (e * (C / e + 1)); [|apply Rmult_le_compat_l; lra]. replace (e * (C / e + 1)) with (C + e) by (field; lra). lra. }
  assert (Y3 : 0 < y * y * y) by (repeat apply Rmult_lt_0_compat; lra). assert (C * (y * y * y) < e * y * (y * y * y)) by (apply Rmult_lt_compat_r; assumption). unfold e in *. nra.
Qed.
Lemma radial_grows a Q E L K m x : 1 <= x -> 0 < E * E + m -> (forall r, x <= r -> 0 < radial a Q E L K m r) ->
  exists k, 0 < k /\ forall r, x <= r -> (k * (r * r + a * a)) * (k * (r * r + a * a)) <= radial a Q E L K m r.
Proof.
  intros Hx He HR. set (C := cub a Q E L K m). assert (PC : 0 <= C) by apply cub_pos. set (e := E * E + m) in *. assert (A2 : 0 <= a * a) by apply Rle_0_sqr.
  set (y := Rmax x (2 * C / e)). assert (Y1 := Rmax_l x (2 * C / e)). assert (Y2 := Rmax_r x (2 * C / e)). fold y in Y1, Y2.
  destruct (radial_min a Q E L K m x y Y1) as (b & Hb & Hmin); [intros r Hr; apply HR; lra|].
  set (k1 := b / (y * y + a * a)). set (k2 := sqrt (e / 2) / (1 + a * a)). assert (P1 : 0 < k1) by (apply Rdiv_lt_0_compat; nra). assert (Pq : 0 < sqrt (e / 2)) by (apply sqrt_lt_R0; lra). assert (P2 : 0 < k2) by (apply Rdiv_lt_0_compat; lra).
  exists (Rmin k1 k2). assert (M1 := Rmin_l k1 k2). assert (M2 := Rmin_r k1 k2). assert (M3 : 0 < Rmin k1 k2) by (apply Rmin_pos; assumption). split; [exact M3|]. set (k := Rmin k1 k2) in *. intros r Hr.
  destruct (Rle_lt_dec r y) as [Le|Gt].
  - apply Rle_trans with (b * b); [|apply Hmin; lra]. assert (B : k * (r * r + a * a) <= b).
    { apply Rle_trans with (k1 * (y * y + a * a)); [|right; unfold k1; field; nra]. apply Rmult_le_compat; [lra|nra|exact M1|nra]. }
    assert (0 <= k * (r * r + a * a)) by (apply Rmult_le_pos; [lra|nra]). apply Rmult_le_compat; assumption.
  - assert (H := radial_far a Q E L K m r ltac:(lra)). fold C e in H. apply Rabs_le_between in H. assert (r1' : 1 <= r) by lra. assert (R2 : 1 <= r * r) by nra.
    assert (B : k * (r * r + a * a) <= sqrt (e / 2) * (r * r)).
    { apply Rle_trans with (k2 * (r * r * (1 + a * a))); [apply Rmult_le_compat; [lra|nra|exact M2|nra]|right; unfold k2; field; lra]. }
    assert (0 <= k * (r * r + a * a)) by (apply Rmult_le_pos; [lra|nra]).
    apply Rle_trans with ((sqrt (e / 2) * (r * r)) * (sqrt (e / 2) * (r * r))); [apply Rmult_le_compat; assumption|].
    replace ((sqrt (e / 2) * (r * r)) * (sqrt (e / 2) * (r * r))) with ((sqrt (e / 2) * sqrt (e / 2)) * (r * r * (r * r))) by ring. rewrite sqrt_sqrt by lra.
    assert (Er : 2 * C < e * r). { apply Rle_lt_trans with (e * (2 * C / e)); [right; field; lra|apply Rmult_lt_compat_l; lra]. }
    assert (R3 : 0 < r * r * r) by (repeat apply Rmult_lt_0_compat; lra). assert (2 * C * (r * r * r) < e * r * (r * r * r)) by (apply Rmult_lt_compat_r; assumption). nra.
Qed.

Section Radial.
Variables (g : metricP) (a Q : R) (q p : R -> V4) (S : R).
Hypothesis Hh : hole g a Q.
Hypothesis I0 : independent_of g 0.
Hypothesis I3 : independent_of g 3.
Hypothesis HG : geodesic_on g q p S.
Hypothesis HS : 0 <= S.
Let Rd := potential g a Q (q 0) (p 0).
(** Delta p_r, and the radial speed *)
Definition f (t : R) : R := DeltaS (c1 (q t)) a Q * c1 (p t).
Definition v (t : R) : R := f t / SigmaS (c1 (q t)) (c2 (q t)) a.
Lemma f_sq t : 0 <= t <= S -> f t * f t = Rd (c1 (q t)).
Proof. intros Ht. exact (ap_radial g a Q q p S Hh I0 I3 HG t Ht). Qed.
Lemma r_deriv t : 0 <= t <= S -> is_derive (fun u => c1 (q u)) t (v t).
Proof.
  intros Ht. assert (D := ap_deriv g a Q q p S Hh HG t 1 Ht ltac:(lia)). cbn [q4nth] in D. eapply D_eq; [exact D|]. destruct (ap_dom g a Q q p S Hh HG t Ht) as (X & _ & _). unfold v, f.
  destruct (p t) as [P0 P1 P2 P3]. unfold kn_con, mv, dot. cbv zeta. cbn [q4map q4nth c0 c1 c2 c3]. field. exact X.
Qed.
Lemma f_cont t : 0 <= t <= S -> continuous f t.
Proof.
  intros Ht. destruct (HG t Ht) as [_ HL]. apply locally_singleton in HL. destruct (HL 1%nat ltac:(lia)) as [_ (l & _ & D)]. cbn [q4nth] in D. assert (Cp := D_continuous _ _ _ D). assert (Cq := D_continuous _ _ _ (r_deriv t Ht)).
  apply (continuous_mult (fun t => DeltaS (c1 (q t)) a Q) (fun t => c1 (p t))); [|exact Cp].
  apply (continuous_comp (fun t => c1 (q t)) (fun r => DeltaS r a Q)); [exact Cq|]. apply (ex_derive_continuous (fun r => DeltaS r a Q)). unfold DeltaS. auto_derive. exact Logic.I.
Qed.
Lemma sigma_positive t : 0 <= t <= S -> 0 < SigmaS (c1 (q t)) (c2 (q t)) a.
Proof.
  intros Ht. destruct (ap_dom g a Q q p S Hh HG t Ht) as (X & _ & _). assert (X2 := sigma_ge (c1 (q t)) (c2 (q t)) a). assert (0 <= c1 (q t) * c1 (q t)) by apply Rle_0_sqr. lra.
Qed.
(** ingoing, with a positive potential on the way in: it keeps falling *)
Lemma falls : f 0 < 0 -> (forall t, 0 <= t <= S -> c1 (q t) <= c1 (q 0) -> 0 < Rd (c1 (q t))) -> forall t, 0 <= t <= S -> f t < 0.
Proof.
  intros F0 HR t Ht. apply Rnot_le_lt. intros Hn.
  destruct (first_hit (fun u => - f u) 0 S t) as (s & Hs & Es & Hbef).
  - intros u Hu. apply (continuous_opp f). apply f_cont. exact Hu.
  - lra.
  - exact Ht.
  - lra.
  - destruct (mvt (fun u => c1 (q u)) v 0 s) as (c & Hc & E); [lra|intros u Hu; apply r_deriv; lra|].
    assert (Fc : f c <= 0) by (destruct (Rlt_le_dec c s) as [L|L]; [assert (B := Hbef c ltac:(lra)); lra|replace c with s by lra; lra]).
    assert (SP := sigma_positive c ltac:(lra)). assert (Vc : v c <= 0). { unfold v, Rdiv. assert (0 < / SigmaS (c1 (q c)) (c2 (q c)) a) by (apply Rinv_0_lt_compat; exact SP). nra. }
    assert (Z := HR s ltac:(lra) ltac:(nra)). rewrite <- (f_sq s) in Z by lra. nra.
Qed.
Lemma falls_mono : (forall t, 0 <= t <= S -> f t < 0) -> forall t u, 0 <= t < u -> u <= S -> c1 (q u) < c1 (q t).
Proof.
  intros HF t u Ht Hu. destruct (mvt (fun w => c1 (q w)) v t u) as (c & Hc & E); [lra|intros w Hw; apply r_deriv; lra|].
  assert (Fc := HF c ltac:(lra)). assert (SP := sigma_positive c ltac:(lra)). assert (Vc : v c < 0). { unfold v, Rdiv. assert (0 < / SigmaS (c1 (q c)) (c2 (q c)) a) by (apply Rinv_0_lt_compat; exact SP). nra. } nra.
Qed.
(** outgoing, with a positive potential further out: it keeps rising *)
Lemma rises : 0 < f 0 -> (forall t, 0 <= t <= S -> c1 (q 0) <= c1 (q t) -> 0 < Rd (c1 (q t))) -> forall t, 0 <= t <= S -> 0 < f t.
Proof.
  intros F0 HR t Ht. apply Rnot_le_lt. intros Hn.
  destruct (first_hit f 0 S t f_cont F0 Ht Hn) as (s & Hs & Es & Hbef).
  destruct (mvt (fun u => c1 (q u)) v 0 s) as (c & Hc & E); [lra|intros u Hu; apply r_deriv; lra|].
  assert (Fc : 0 <= f c) by (destruct (Rlt_le_dec c s) as [L|L]; [assert (B := Hbef c ltac:(lra)); lra|replace c with s by lra; lra]).
  assert (SP := sigma_positive c ltac:(lra)). assert (Vc : 0 <= v c). { unfold v, Rdiv. assert (0 < / SigmaS (c1 (q c)) (c2 (q c)) a) by (apply Rinv_0_lt_compat; exact SP). nra. }
  assert (Z := HR s ltac:(lra) ltac:(nra)). rewrite <- (f_sq s) in Z by lra. nra.
Qed.
Lemma rises_mono : (forall t, 0 <= t <= S -> 0 < f t) -> forall t u, 0 <= t < u -> u <= S -> c1 (q t) < c1 (q u).
Proof.
  intros HF t u Ht Hu. destruct (mvt (fun w => c1 (q w)) v t u) as (c & Hc & E); [lra|intros w Hw; apply r_deriv; lra|].
  assert (Fc := HF c ltac:(lra)). assert (SP := sigma_positive c ltac:(lra)). assert (Vc : 0 < v c). { unfold v, Rdiv. apply Rmult_lt_0_compat; [exact Fc|apply Rinv_0_lt_compat; exact SP]. } nra.
Qed.
Lemma sigma_le t : SigmaS (c1 (q t)) (c2 (q t)) a <= c1 (q t) * c1 (q t) + a * a.
Proof. unfold SigmaS. assert (C := COS_bound (c2 (q t))). assert (cos (c2 (q t)) * cos (c2 (q t)) <= 1) by nra. assert (0 <= a * a) by apply Rle_0_sqr. nra. Qed.
(** speed limits *)
Lemma fast_in b r0 t : 0 <= t <= S -> f t < 0 -> 0 < b -> b * b <= Rd (c1 (q t)) -> 0 < c1 (q t) <= r0 -> v t <= - (b / (r0 * r0 + a * a)).
Proof.
  intros Ht HF Hb HR Hr. rewrite <- (f_sq t Ht) in HR. assert (Fb : f t <= - b) by nra. assert (SP := sigma_positive t Ht). assert (SL := sigma_le t).
  assert (SL2 : SigmaS (c1 (q t)) (c2 (q t)) a <= r0 * r0 + a * a) by nra. unfold v, Rdiv.
  assert (I := Rinv_le_contravar _ _ SP SL2). assert (0 < / (r0 * r0 + a * a)) by (apply Rinv_0_lt_compat; lra). nra.
Qed.
Lemma fast_out k t : 0 <= t <= S -> 0 < f t -> 0 < k -> (k * (c1 (q t) * c1 (q t) + a * a)) * (k * (c1 (q t) * c1 (q t) + a * a)) <= Rd (c1 (q t)) -> k <= v t.
Proof.
  intros Ht HF Hk HR. rewrite <- (f_sq t Ht) in HR. assert (SP := sigma_positive t Ht). assert (SL := sigma_le t). set (X := c1 (q t) * c1 (q t) + a * a) in *.
  assert (Fb : k * X <= f t) by (assert (0 < k * X) by (apply Rmult_lt_0_compat; lra); nra). unfold v. apply Rmult_le_reg_r with (SigmaS (c1 (q t)) (c2 (q t)) a); [exact SP|]. unfold Rdiv. rewrite Rmult_assoc, Rinv_l, Rmult_1_r by lra. nra.
Qed.
End Radial.

Section Fate.
Variables (s : string) (prms : list R) (g : metricP) (a Q r1 : R) (q0 p0 : V4).
Hypothesis HN : named_bh s prms g a Q.
Hypothesis HX : exterior a Q r1 q0 p0.
Lemma ext_delta r : r1 <= r -> 0 < DeltaS r a Q.
Proof. intros Hr. destruct HX as (B1 & B2 & _). assert (D := delta_mono a Q r1 r ltac:(lra)). assert (0 < DeltaS r1 a Q) by (unfold DeltaS; lra). lra. Qed.
(** it exists for all parameter values, or reaches r1 *)
Theorem named_reach T : 0 <= T ->
  (exists q p, q 0 = q0 /\ p 0 = p0 /\ geodesic_on g q p T /\ forall t, 0 <= t <= T -> r1 < c1 (q t) /\ 0 < c2 (q t) < PI) \/
  (exists S q p, 0 < S <= T /\ q 0 = q0 /\ p 0 = p0 /\ geodesic_on g q p S /\ c1 (q S) = r1 /\ (forall t, 0 <= t < S -> r1 < c1 (q t)) /\ forall t, 0 <= t <= S -> 0 < c2 (q t) < PI).
Proof.
  destruct HX as (B1 & B2 & B3 & B4). destruct (named_bh_spec _ _ _ _ _ HN) as (_ & Hh & I0 & I3).
  assert (D : 0 < DeltaS r1 a Q) by (unfold DeltaS; exact B2). exact (hole_reach g a Q q0 p0 r1 Hh I0 I3 B1 D B3 B4 T).
Qed.
(** captured: ingoing, and the potential is positive from the start down to r1 *)
Theorem named_captured : c1 p0 < 0 -> (forall r, r1 <= r <= c1 q0 -> 0 < potential g a Q q0 p0 r) ->
  exists S q p, 0 < S /\ q 0 = q0 /\ p 0 = p0 /\ geodesic_on g q p S /\ c1 (q S) = r1 /\ (forall t u, 0 <= t < u -> u <= S -> c1 (q u) < c1 (q t)) /\ forall t, 0 <= t <= S -> 0 < c2 (q t) < PI.
Proof.
  intros Hin HR. destruct (named_bh_spec _ _ _ _ _ HN) as (_ & Hh & I0 & I3). assert (B1 := proj1 HX).
  destruct (radial_min a Q (c0 p0) (c3 p0) (carter a q0 p0 (2 * Ham g q0 p0)) (2 * Ham g q0 p0) r1 (c1 q0) ltac:(lra) HR) as (b & Hb & Hmin).
  assert (V0 : 0 < b / (c1 q0 * c1 q0 + a * a)). { apply Rdiv_lt_0_compat; [exact Hb|]. assert (0 <= a * a) by apply Rle_0_sqr. nra. } set (v0 := b / (c1 q0 * c1 q0 + a * a)) in *.
  assert (D0 := ext_delta (c1 q0) ltac:(lra)).
  assert (MONO : forall S q p, 0 <= S -> q 0 = q0 -> p 0 = p0 -> geodesic_on g q p S -> (forall t, 0 <= t <= S -> r1 <= c1 (q t)) -> (forall t, 0 <= t <= S -> f a Q q p t < 0) /\ forall t u, 0 <= t < u -> u <= S -> c1 (q u) < c1 (q t)).
  { intros S q p HS E0 E1 HG Hab. assert (F : forall t, 0 <= t <= S -> f a Q q p t < 0).
    { apply (falls g a Q q p S Hh I0 I3 HG); [unfold f; rewrite E0, E1; nra|]. intros t Ht Hle. rewrite E0, E1. apply HR. rewrite E0 in Hle. split; [apply Hab; exact Ht|exact Hle]. }
    split; [exact F|]. exact (falls_mono g a Q q p S Hh HG F). }
  set (T := (c1 q0 - r1) / v0). assert (HT : 0 <= T) by (unfold T; apply Rlt_le, Rdiv_lt_0_compat; lra).
  destruct (named_reach T HT) as [(q & p & E0 & E1 & HG & Hab)|(S & q & p & HS & E0 & E1 & HG & Hx & Hbef & Hth)].
  - exfalso. destruct (MONO T q p HT E0 E1 HG) as [F Mono]; [intros t Ht; left; apply (Hab t Ht)|].
    destruct (mvt (fun u => c1 (q u)) (v a Q q p) 0 T HT) as (c & Hc & E); [intros u Hu; exact (r_deriv g a Q q p T Hh HG u Hu)|]. cbv beta in E.
    assert (Rc : c1 (q c) <= c1 q0). { destruct (Rlt_le_dec 0 c) as [L|L]; [rewrite <- E0; left; apply Mono; lra|replace c with 0 by lra; rewrite E0; lra]. }
    assert (Vc := fast_in g a Q q p T Hh I0 I3 HG b (c1 q0) c Hc (F c Hc) Hb). rewrite E0, E1 in Vc. specialize (Vc (Hmin _ (Logic.conj (Rlt_le _ _ (proj1 (Hab c Hc))) Rc)) ltac:(assert (X := proj1 (Hab c Hc)); lra)). fold v0 in Vc.
    assert (X := proj1 (Hab T ltac:(lra))). rewrite E0, Rminus_0_r in E. assert (TE : v0 * T = c1 q0 - r1) by (unfold T; field; lra). nra.
  - exists S, q, p. split; [lra|]. split; [exact E0|]. split; [exact E1|]. split; [exact HG|]. split; [exact Hx|].
    destruct (MONO S q p ltac:(lra) E0 E1 HG) as [F Mono]; [intros t Ht; destruct (Rlt_le_dec t S) as [L|L]; [left; apply Hbef; lra|replace t with S by lra; lra]|].
    split; [exact Mono|exact Hth].
Qed.
(** escapes: outgoing, the potential is positive from the start outwards, and E^2 exceeds m^2 *)
Theorem named_escapes : 0 < c1 p0 -> (forall r, c1 q0 <= r -> 0 < potential g a Q q0 p0 r) -> 0 < c0 p0 * c0 p0 + 2 * Ham g q0 p0 ->
  exists k, 0 < k /\ forall T, 0 <= T -> exists q p, q 0 = q0 /\ p 0 = p0 /\ geodesic_on g q p T /\ (forall t u, 0 <= t < u -> u <= T -> c1 (q t) < c1 (q u)) /\ forall t, 0 <= t <= T -> c1 q0 + k * t <= c1 (q t) /\ 0 < c2 (q t) < PI.
Proof.
  intros Hout HR He. destruct (named_bh_spec _ _ _ _ _ HN) as (_ & Hh & I0 & I3). assert (B1 := proj1 HX).
  destruct (radial_grows a Q (c0 p0) (c3 p0) (carter a q0 p0 (2 * Ham g q0 p0)) (2 * Ham g q0 p0) (c1 q0) ltac:(lra) He HR) as (k & Hk & Hgr). exists k. split; [exact Hk|]. intros T HT.
  assert (D0 := ext_delta (c1 q0) ltac:(lra)).
  assert (RISE : forall S q p, 0 <= S -> q 0 = q0 -> p 0 = p0 -> geodesic_on g q p S -> (forall t u, 0 <= t < u -> u <= S -> c1 (q t) < c1 (q u)) /\ forall t, 0 <= t <= S -> c1 q0 + k * t <= c1 (q t)).
  { intros S q p HS E0 E1 HG. assert (F : forall t, 0 <= t <= S -> 0 < f a Q q p t).
    { apply (rises g a Q q p S Hh I0 I3 HG); [unfold f; rewrite E0, E1; apply Rmult_lt_0_compat; assumption|]. intros t Ht Hle. rewrite E0, E1. apply HR. rewrite E0 in Hle. exact Hle. }
    assert (Mono := rises_mono g a Q q p S Hh HG F). split; [exact Mono|]. intros t Ht.
    destruct (mvt (fun u => c1 (q u)) (v a Q q p) 0 t) as (c & Hc & E); [lra|intros u Hu; apply (r_deriv g a Q q p S Hh HG u); lra|]. cbv beta in E. rewrite E0, Rminus_0_r in E.
    assert (Rc : c1 q0 <= c1 (q c)). { destruct (Rlt_le_dec 0 c) as [L|L]; [rewrite <- E0; left; apply Mono; lra|replace c with 0 by lra; rewrite E0; lra]. }
    assert (Vc := fast_out g a Q q p S Hh I0 I3 HG k c ltac:(lra) (F c ltac:(lra)) Hk). rewrite E0, E1 in Vc. specialize (Vc (Hgr _ Rc)). nra. }
  destruct (named_reach T HT) as [(q & p & E0 & E1 & HG & Hab)|(S & q & p & HS & E0 & E1 & HG & Hx & _)].
  - destruct (RISE T q p HT E0 E1 HG) as [Mono Lin]. exists q, p. split; [exact E0|]. split; [exact E1|]. split; [exact HG|]. split; [exact Mono|]. intros t Ht. split; [apply Lin; exact Ht|apply Hab; exact Ht].
  - exfalso. destruct (RISE S q p ltac:(lra) E0 E1 HG) as [_ Lin]. assert (X := Lin S ltac:(lra)). assert (0 < k * S) by (apply Rmult_lt_0_compat; lra). lra.
Qed.
End Fate.
(** bound: with E^2 < m^2 no motion gets beyond some radius *)
Theorem named_confined s prms g a Q q0 p0 : named_bh s prms g a Q -> c0 p0 * c0 p0 + 2 * Ham g q0 p0 < 0 ->
  exists r2, forall q p T, 0 <= T -> q 0 = q0 -> p 0 = p0 -> geodesic_on g q p T -> forall t, 0 <= t <= T -> c1 (q t) < r2.
Proof.
  intros HN He. destruct (named_bh_spec _ _ _ _ _ HN) as (_ & Hh & I0 & I3).
  destruct (radial_neg a Q (c0 p0) (c3 p0) (carter a q0 p0 (2 * Ham g q0 p0)) (2 * Ham g q0 p0) He (c1 q0)) as (y & Hy & HR). exists y. intros q p T HT E0 E1 HG.
  rewrite <- E0, <- E1 in HR. rewrite <- E0 in Hy. apply (never_crosses g a Q q p T y Hh I0 I3 HG HT HR). exact Hy.
Qed.
(** bound orbits: a barrier inside and E^2 < m^2 *)
Theorem named_bound s prms g a Q r1 q0 p0 : named_bh s prms g a Q -> barred g a Q r1 q0 p0 -> c0 p0 * c0 p0 + 2 * Ham g q0 p0 < 0 ->
  exists r2, forall T, 0 <= T -> exists q p, q 0 = q0 /\ p 0 = p0 /\ geodesic_on g q p T /\ forall t, 0 <= t <= T -> r1 < c1 (q t) < r2 /\ 0 < c2 (q t) < PI.
Proof.
  intros HN HB He. destruct (named_confined s prms g a Q q0 p0 HN He) as (r2 & H2). exists r2. intros T HT. destruct (named_global s prms g a Q r1 q0 p0 HN HB T HT) as (q & p & E0 & E1 & HG & HR).
  exists q, p. split; [exact E0|]. split; [exact E1|]. split; [exact HG|]. intros t Ht. destruct (HR t Ht) as [A B]. split; [|exact B]. split; [exact A|]. exact (H2 q p T HT E0 E1 HG t Ht).
Qed.
