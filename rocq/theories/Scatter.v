(** C130: turning points: a body falling towards a simple root of the radial potential turns around there. *)
From Coq Require Import String Reals List ZArith Lra Lia Bool.
From Coquelicot Require Import Coquelicot.
From Verif Require Import Base Calc DualModel DualSpec DualProofs DualDiff GeoUtilsModel GeoUtilsSpec GeoUtilsProofs GeodesicModel GeodesicProofs CoordModel CoordProofs2 ConvModel ConvProofs
  FantasyModel FantasyProofs FantasyProofs2 FantasyProofs3 FantasyHam FantasyOrder FantasyGlobal FantasyGlobal2 FantasyGlobal3 FantasyShell FantasyCyclic FantasyCircular FloatModel FantasyCarter FloatPlane ProgCont
  MetricModel MetricSpec MetricProofs MetricProofs2 MetricProofs3 MetricHamilton MetricHamilton2 MetricRK Picard PicardProg.
From Verif Require Import Contin Leave GlobalHole GlobalHole2 GlobalMotion.
From Verif Require Import Fate.
Import ListNotations.
Open Scope R_scope.

(** the derivative of the radial potential *)
Definition dradial (a Q E L K m r : R) : R := let P := (r * r + a * a) * E + a * L in 4 * r * E * P - (2 * r - 2) * (K - m * (r * r)) + 2 * m * r * DeltaS r a Q.
Lemma radial_deriv a Q E L K m r : is_derive (radial a Q E L K m) r (dradial a Q E L K m r).
Proof. unfold radial, dradial, DeltaS. cbv zeta. auto_derive; [exact Logic.I|ring]. Qed.
Definition dpotential (g : metricP) (a Q : R) (q0 p0 : V4) (r : R) : R := dradial a Q (c0 p0) (c3 p0) (carter a q0 p0 (2 * Ham g q0 p0)) (2 * Ham g q0 p0) r.

Lemma r_derivative (a Q th C : R) (p : V4) (r : R) : SigmaS r th a <> 0 -> DeltaS r a Q <> 0 ->
  is_derive (fun x => / 2 * ((DeltaS x a Q * (c1 p * c1 p) - ((x * x + a * a) * c0 p + a * c3 p) * ((x * x + a * a) * c0 p + a * c3 p) / DeltaS x a Q + C) / SigmaS x th a)) r
   (/ 2 * (((2 * r - 2) * (c1 p * c1 p) - (4 * r * c0 p * ((r * r + a * a) * c0 p + a * c3 p)) / DeltaS r a Q + ((r * r + a * a) * c0 p + a * c3 p) * ((r * r + a * a) * c0 p + a * c3 p) * (2 * r - 2) / (DeltaS r a Q * DeltaS r a Q)) / SigmaS r th a
     - 2 * r * (DeltaS r a Q * (c1 p * c1 p) - ((r * r + a * a) * c0 p + a * c3 p) * ((r * r + a * a) * c0 p + a * c3 p) / DeltaS r a Q + C) / (SigmaS r th a * SigmaS r th a))).
Proof. intros HS HD. unfold SigmaS, DeltaS in *. auto_derive; [repeat split; assumption|]. field. repeat split; assumption. Qed.
Lemma near_domain_r r a Q th : SigmaS r th a <> 0 -> DeltaS r a Q <> 0 -> locally r (fun x => SigmaS x th a <> 0 /\ DeltaS x a Q <> 0).
Proof.
  intros HS HD. apply filter_and.
  - assert (C : continuous (fun y => SigmaS y th a) r) by (apply (ex_derive_continuous (fun y => SigmaS y th a)); unfold SigmaS; auto_derive; exact Logic.I). exact (C (fun v => v <> 0) (open_neq 0 _ HS)).
  - assert (C : continuous (fun y => DeltaS y a Q) r) by (apply (ex_derive_continuous (fun y => DeltaS y a Q)); unfold DeltaS; auto_derive; exact Logic.I). exact (C (fun v => v <> 0) (open_neq 0 _ HD)).
Qed.

Section Radial2.
Variables (g : metricP) (a Q : R) (q p : R -> V4) (S : R).
Hypothesis Hh : hole g a Q.
Hypothesis I0 : independent_of g 0.
Hypothesis I3 : independent_of g 3.
Hypothesis HG : geodesic_on g q p S.
Hypothesis HS : 0 <= S.
Let Rd := potential g a Q (q 0) (p 0).
Let dRd := dpotential g a Q (q 0) (p 0).
(** (Delta p_r)' is half the derivative of the potential, over Sigma *)
Lemma f_deriv t : 0 <= t <= S -> is_derive (f a Q q p) t (dRd (c1 (q t)) / (2 * SigmaS (c1 (q t)) (c2 (q t)) a)).
Proof.
  intros Ht. destruct (HG t Ht) as [Dm HL]. apply locally_singleton in HL. destruct (HL 1%nat ltac:(lia)) as [_ (D & D1 & D2)].
  destruct (ap_dom g a Q q p S Hh HG t Ht) as (HSg & HD & Hs). assert (DR := r_deriv g a Q q p S Hh HG t Ht). destruct (ap_consts g a Q q p S Hh I0 I3 HG t Ht) as (A0 & A3 & AH & AC).
  unfold dRd, dpotential.
  set (K := carter a (q 0) (p 0) (2 * Ham g (q 0) (p 0))) in *. set (H2 := 2 * Ham g (q 0) (p 0)) in *. clearbody K H2. rewrite <- A0, <- A3. clear A0 A3.
  rewrite (hole_ham g a Q Hh _ _ Dm), kn_separated in AH by assumption. unfold carter in AC.
  assert (ED : D = / 2 * (((2 * c1 (q t) - 2) * (c1 (p t) * c1 (p t)) - (4 * c1 (q t) * c0 (p t) * ((c1 (q t) * c1 (q t) + a * a) * c0 (p t) + a * c3 (p t))) / DeltaS (c1 (q t)) a Q
      + ((c1 (q t) * c1 (q t) + a * a) * c0 (p t) + a * c3 (p t)) * ((c1 (q t) * c1 (q t) + a * a) * c0 (p t) + a * c3 (p t)) * (2 * c1 (q t) - 2) / (DeltaS (c1 (q t)) a Q * DeltaS (c1 (q t)) a Q)) / SigmaS (c1 (q t)) (c2 (q t)) a - 2 * c1 (q t) * H2 / SigmaS (c1 (q t)) (c2 (q t)) a)).
  { rewrite <- (is_derive_unique _ _ _ D1). cbn [q4nth]. apply is_derive_unique.
    set (C := c2 (p t) * c2 (p t) + (a * sin (c2 (q t)) * c0 (p t) + c3 (p t) / sin (c2 (q t))) * (a * sin (c2 (q t)) * c0 (p t) + c3 (p t) / sin (c2 (q t)))).
    eapply D_eq; [eapply is_derive_ext_loc; [|exact (r_derivative a Q (c2 (q t)) C (p t) (c1 (q t)) HSg HD)]|].
    - generalize (near_domain_r _ a Q _ HSg HD). apply filter_imp. intros x [X1 X2]. destruct (q t) as [qt r th ph]. cbn [c1 c2] in *.
      change (vupd (mkQ4 qt r th ph) 1 x) with (mkQ4 qt x th ph). destruct (proj2 (proj2 (proj1 Hh)) qt x th ph X1 X2 Hs) as [Dx _].
      rewrite (hole_ham g a Q Hh (mkQ4 qt x th ph) (p t) Dx). cbn [c1 c2]. rewrite kn_separated by assumption. unfold C. f_equal. f_equal. ring.
    - rewrite <- AH. unfold C. field. repeat split; assumption. }
  clear D1. cbn [q4nth] in D2. rewrite ED in D2. clear ED.
  assert (DD : is_derive (fun u => DeltaS (c1 (q u)) a Q) t (v a Q q p t * (2 * c1 (q t) - 2))).
  { apply (D_comp (fun r => DeltaS r a Q) (fun u => c1 (q u))); [|exact DR]. unfold DeltaS. auto_derive; [exact Logic.I|ring]. }
  unfold f. eapply D_eq; [exact (D_mult _ _ _ _ _ DD D2)|]. cbv beta. unfold v, f, dradial. cbv zeta.
  set (P := (c1 (q t) * c1 (q t) + a * a) * c0 (p t) + a * c3 (p t)) in *. set (Dl := DeltaS (c1 (q t)) a Q) in *. set (Sg := SigmaS (c1 (q t)) (c2 (q t)) a) in *.
  set (X := a * sin (c2 (q t)) * c0 (p t) + c3 (p t) / sin (c2 (q t))) in *.
  assert (ES : Sg = c1 (q t) * c1 (q t) + a * a * (cos (c2 (q t)) * cos (c2 (q t)))) by reflexivity.
  assert (KE : H2 * (c1 (q t) * c1 (q t)) - K = Dl * (c1 (p t) * c1 (p t)) - P * P / Dl).
  { assert (HE : H2 * Sg = Dl * (c1 (p t) * c1 (p t)) - P * P / Dl + c2 (p t) * c2 (p t) + X * X) by (rewrite <- AH; field; split; assumption). rewrite ES in HE. rewrite <- AC. lra. }
  replace (K - H2 * (c1 (q t) * c1 (q t))) with (- (Dl * (c1 (p t) * c1 (p t)) - P * P / Dl)) by (rewrite <- KE; ring).
  clearbody P Dl Sg. field. split; assumption.
Qed.
(** rising again from a time s0 *)
Lemma rises_from s0 : 0 <= s0 <= S -> 0 < f a Q q p s0 -> (forall t, s0 <= t <= S -> c1 (q s0) <= c1 (q t) -> 0 < Rd (c1 (q t))) -> forall t, s0 <= t <= S -> 0 < f a Q q p t.
Proof.
  intros Hs0 F0 HR t Ht. apply Rnot_le_lt. intros Hn.
  destruct (first_hit (fun u => f a Q q p (s0 + u)) 0 (S - s0) (t - s0)) as (x & Hx & Ex & Hbef).
  - intros u Hu. apply (continuous_comp (fun u => s0 + u) (f a Q q p)); [apply (continuous_plus (fun _ => s0) (fun u => u)); [apply continuous_const|apply continuous_id]|]. apply (f_cont g a Q q p S Hh HG). lra.
  - rewrite Rplus_0_r. exact F0.
  - lra.
  - replace (s0 + (t - s0)) with t by ring. exact Hn.
  - destruct (mvt (fun u => c1 (q u)) (v a Q q p) s0 (s0 + x)) as (c & Hc & E); [lra|intros u Hu; apply (r_deriv g a Q q p S Hh HG); lra|].
    assert (Fc : 0 <= f a Q q p c). { destruct (Rlt_le_dec (c - s0) x) as [L|L]; [assert (B := Hbef (c - s0) ltac:(lra)); replace (s0 + (c - s0)) with c in B by ring; lra|replace c with (s0 + x) by lra; lra]. }
    assert (SP := sigma_positive g a Q q p S Hh HG c ltac:(lra)). assert (Vc : 0 <= v a Q q p c). { unfold v, Rdiv. apply Rmult_le_pos; [exact Fc|left; apply Rinv_0_lt_compat; exact SP]. }
    assert (Z := HR (s0 + x) ltac:(lra) ltac:(nra)). unfold Rd in Z. rewrite <- (f_sq g a Q q p S Hh I0 I3 HG (s0 + x)) in Z by lra. rewrite Ex in Z. lra.
Qed.
(** falling until a time s0 with a positive potential outside rt: still outside rt *)
Lemma falls_above rt : rt < c1 (q 0) -> Rd rt = 0 -> (forall t, 0 <= t < S -> f a Q q p t < 0) -> forall t, 0 <= t < S -> rt < c1 (q t).
Proof.
  intros H0 HR HF t Ht. apply (stays_above (fun u => c1 (q u)) rt t); [lra| | |exact H0|lra].
  - intros u Hu. eapply D_continuous. apply (r_deriv g a Q q p S Hh HG). lra.
  - intros u Hu E. assert (Z := f_sq g a Q q p S Hh I0 I3 HG u ltac:(lra)). cbv beta in E. rewrite E in Z. unfold Rd in HR. rewrite HR in Z. assert (N := HF u ltac:(lra)). nra.
Qed.
End Radial2.

Lemma dradial_continuous a Q E L K m r : continuity_pt (dradial a Q E L K m) r.
Proof. apply continuity_pt_filterlim. apply (ex_derive_continuous (fun r => dradial a Q E L K m r) r). unfold dradial, DeltaS. cbv zeta. auto_derive. exact Logic.I. Qed.
(** near a simple root the derivative stays positive *)
Lemma dradial_near a Q E L K m x : 0 < dradial a Q E L K m x -> exists d c, 0 < d /\ 0 < c /\ forall r, x <= r <= x + d -> c <= dradial a Q E L K m r.
Proof.
  intros H. assert (C := dradial_continuous a Q E L K m x). apply continuity_pt_filterlim in C. set (c := dradial a Q E L K m x / 2). assert (Pc : 0 < c) by (unfold c; lra).
  destruct (proj1 (filterlim_locally _ _) C (mkposreal _ Pc)) as [d Hd]. exists (d / 2), c. assert (Pd := cond_pos d). split; [lra|]. split; [exact Pc|]. intros r Hr.
  assert (B : Rabs (r - x) < d) by (rewrite Rabs_right; lra). specialize (Hd r B). unfold ball in Hd; cbn in Hd. unfold AbsRing_ball, abs, minus, plus, opp in Hd; cbn in Hd. apply Rabs_def2 in Hd. unfold c in *. lra.
Qed.

Section Turn.
Variables (s : string) (prms : list R) (g : metricP) (a Q r1 rt : R) (q0 p0 : V4).
Hypothesis HN : named_bh s prms g a Q.
Hypothesis HB : barred g a Q r1 q0 p0.
Hypothesis Hin : c1 p0 < 0.
Let Rd := potential g a Q q0 p0.
Hypothesis Hrt : rt < c1 q0.
Hypothesis Hroot : Rd rt = 0.
Hypothesis Hsimple : 0 < dpotential g a Q q0 p0 rt.
Hypothesis Hpos : forall r, rt < r -> 0 < Rd r.
Lemma t_hole : hole g a Q /\ independent_of g 0 /\ independent_of g 3. Proof. apply (named_bh_spec _ _ _ _ _ HN). Qed.
Lemma t_delta r : r1 <= r -> 0 < DeltaS r a Q.
Proof. intros Hr. destruct HB as (B1 & B2 & _). assert (D := delta_mono a Q r1 r ltac:(lra)). assert (0 < DeltaS r1 a Q) by (unfold DeltaS; lra). lra. Qed.
Lemma f_start q p : q 0 = q0 -> p 0 = p0 -> f a Q q p 0 < 0.
Proof. intros E0 E1. destruct HB as (B1 & _). assert (D := t_delta (c1 q0) ltac:(lra)). unfold f. rewrite E0, E1. nra. Qed.
(** it stops falling in finite time *)
Lemma turns : exists T, 0 < T /\ forall q p, q 0 = q0 -> p 0 = p0 -> geodesic_on g q p T -> (forall t, 0 <= t < T -> f a Q q p t < 0) -> False.
Proof.
  destruct t_hole as (Hh & I0 & I3). destruct HB as (B1 & _).
  destruct (dradial_near a Q (c0 p0) (c3 p0) (carter a q0 p0 (2 * Ham g q0 p0)) (2 * Ham g q0 p0) rt Hsimple) as (d & c & Pd & Pc & Hd).
  set (y := Rmin (rt + d) (c1 q0)). assert (Y1 := Rmin_l (rt + d) (c1 q0)). assert (Y2 := Rmin_r (rt + d) (c1 q0)). assert (Y3 : rt < y) by (unfold y; apply Rmin_glb_lt; lra). fold y in Y1, Y2.
  destruct (radial_min a Q (c0 p0) (c3 p0) (carter a q0 p0 (2 * Ham g q0 p0)) (2 * Ham g q0 p0) y (c1 q0) Y2) as (b & Hb & Hmin); [intros r Hr; apply Hpos; lra|].
  destruct (continuity_ab_maj Rd rt (c1 q0) ltac:(lra) (fun c _ => radial_continuous _ _ _ _ _ _ c)) as (xm & Hmax & _). set (M := Rabs (Rd xm) + 1).
  set (Z := c1 q0 * c1 q0 + a * a). assert (PZ : 0 < Z) by (unfold Z; assert (0 <= a * a) by apply Rle_0_sqr; nra).
  set (v0 := b / Z). assert (V0 : 0 < v0) by (apply Rdiv_lt_0_compat; assumption). set (w := c / (2 * Z)). assert (W0 : 0 < w) by (apply Rdiv_lt_0_compat; lra).
  assert (PM : 1 <= M) by (unfold M; generalize (Rabs_pos (Rd xm)); lra).
  set (T1 := (c1 q0 - rt) / v0). assert (PT1 : 0 < T1) by (apply Rdiv_lt_0_compat; lra). assert (PMw : 0 < M / w) by (apply Rdiv_lt_0_compat; lra). set (T2 := T1 + M / w). exists (T2 + 1). split; [unfold T2; lra|].
  intros q p E0 E1 HG HF. set (T := T2 + 1) in *. assert (PT : 0 <= T) by (unfold T, T2; lra).
  assert (RdE : potential g a Q (q 0) (p 0) = Rd) by (unfold Rd; rewrite E0, E1; reflexivity).
  assert (HG2 : geodesic_on g q p T2) by (intros t Ht; apply HG; unfold T; lra). assert (HF2 : forall t, 0 <= t <= T2 -> f a Q q p t < 0) by (intros t Ht; apply HF; unfold T; lra). assert (PT2 : 0 <= T2) by (unfold T2; lra).
  assert (Ab : forall t, 0 <= t <= T2 -> rt < c1 (q t)). { intros t Ht. apply (falls_above g a Q q p T Hh I0 I3 HG rt); [rewrite E0; exact Hrt|rewrite RdE; exact Hroot|exact HF|unfold T; lra]. }
  assert (Mono := falls_mono g a Q q p T2 Hh HG2 HF2).
  assert (Bel : forall t, 0 <= t <= T2 -> c1 (q t) <= c1 q0). { intros t Ht. destruct (Rlt_le_dec 0 t) as [L|L]; [rewrite <- E0; left; apply Mono; lra|replace t with 0 by lra; rewrite E0; lra]. }
  assert (B1t : r1 < rt). { apply Rnot_le_lt. intros Hn. destruct HB as (_ & _ & _ & _ & B5). destruct Hn as [Hn|Hn]; [assert (X := Hpos r1 Hn); unfold Rd, potential in X; lra|unfold Rd, potential in Hroot; rewrite Hn in Hroot; lra]. }
  assert (In1 : c1 (q T1) < y).
  { apply Rnot_le_lt. intros Hn. destruct (mvt (fun u => c1 (q u)) (v a Q q p) 0 T1) as (x & Hx & E); [lra|intros u Hu; apply (r_deriv g a Q q p T2 Hh HG2); unfold T2; lra|]. cbv beta in E. rewrite E0, Rminus_0_r in E.
    assert (X2 : x <= T2) by (unfold T2; lra). assert (Yx : y <= c1 (q x)). { destruct (Rlt_le_dec x T1) as [L|L]; [apply Rle_trans with (1 := Hn); left; apply Mono; unfold T2; lra|replace x with T1 by lra; exact Hn]. }
    assert (Bx := Bel x ltac:(lra)). assert (Vx := fast_in g a Q q p T2 Hh I0 I3 HG2 b (c1 q0) x ltac:(lra) (HF2 x ltac:(lra)) Hb). rewrite RdE in Vx. specialize (Vx (Hmin _ (Logic.conj Yx Bx)) ltac:(lra)). fold Z v0 in Vx.
    assert (A1 := Ab T1 ltac:(unfold T2; lra)). assert (TE : v0 * T1 = c1 q0 - rt) by (unfold T1; field; lra). nra. }
  assert (FT1 : - M <= f a Q q p T1).
  { assert (SQ := f_sq g a Q q p T2 Hh I0 I3 HG2 T1 ltac:(unfold T2; lra)). rewrite RdE in SQ. assert (X := Hmax (c1 (q T1)) ltac:(assert (A1 := Ab T1 ltac:(unfold T2; lra)); assert (A2 := Bel T1 ltac:(unfold T2; lra)); lra)).
    assert (X2 := Rle_abs (Rd xm)). assert (X3 := HF2 T1 ltac:(unfold T2; lra)). unfold M in *. nra. }
  destruct (mvt (f a Q q p) (fun t => dpotential g a Q (q 0) (p 0) (c1 (q t)) / (2 * SigmaS (c1 (q t)) (c2 (q t)) a)) T1 T2) as (x & Hx & E); [unfold T2; lra|intros u Hu; apply (f_deriv g a Q q p T2 Hh I0 I3 HG2); lra|].
  cbv beta in E. rewrite E0, E1 in E. assert (x0 : 0 <= x <= T2) by lra.
  assert (Rx : c1 (q x) <= rt + d). { destruct (Rlt_le_dec T1 x) as [L|L]; [apply Rle_trans with (c1 (q T1)); [left; apply Mono; lra|lra]|replace x with T1 by lra; lra]. }
  assert (Dx := Hd (c1 (q x)) ltac:(assert (A1 := Ab x x0); lra)). change (dradial a Q (c0 p0) (c3 p0) (carter a q0 p0 (2 * Ham g q0 p0)) (2 * Ham g q0 p0) (c1 (q x))) with (dpotential g a Q q0 p0 (c1 (q x))) in Dx.
  assert (SP := sigma_positive g a Q q p T2 Hh HG2 x x0). assert (SL := sigma_le a q x). assert (Ax := Ab x x0). assert (Bx := Bel x x0).
  assert (SZ : SigmaS (c1 (q x)) (c2 (q x)) a <= Z) by (unfold Z; nra).
  assert (GE : w <= dpotential g a Q q0 p0 (c1 (q x)) / (2 * SigmaS (c1 (q x)) (c2 (q x)) a)).
  { unfold w, Rdiv. apply Rmult_le_compat; [lra|left; apply Rinv_0_lt_compat; lra|exact Dx|apply Rinv_le_contravar; lra]. }
  assert (FE := HF2 T2 ltac:(lra)). assert (TD : T2 - T1 = M / w) by (unfold T2; ring). rewrite TD in E. assert (WM : w * (M / w) = M) by (field; lra). nra.
Qed.
(** the motion after the first time at which it is not falling *)
Lemma after_turn q p S : 0 <= S -> q 0 = q0 -> p 0 = p0 -> geodesic_on g q p S -> forall t, 0 <= t <= S -> 0 <= f a Q q p t ->
  exists x, 0 < x <= t /\ c1 (q x) = rt /\ (forall u u', 0 <= u < u' -> u' <= x -> c1 (q u') < c1 (q u)) /\ (forall u u', x <= u < u' -> u' <= S -> c1 (q u) < c1 (q u')) /\ forall u, x < u <= S -> 0 < f a Q q p u.
Proof.
  intros HS E0 E1 HG t Ht Hft. destruct t_hole as (Hh & I0 & I3). assert (F0 := f_start q p E0 E1). assert (RdE : potential g a Q (q 0) (p 0) = Rd) by (unfold Rd; rewrite E0, E1; reflexivity).
  destruct (first_hit (fun u => - f a Q q p u) 0 S t) as (x & Hx & Ex & Hbef); [intros u Hu; apply (continuous_opp (f a Q q p)); exact (f_cont g a Q q p S Hh HG u Hu)|lra|exact Ht|lra|].
  assert (HF : forall u, 0 <= u < x -> f a Q q p u < 0) by (intros u Hu; assert (B := Hbef u Hu); lra). assert (Fx : f a Q q p x = 0) by lra.
  assert (HGx : geodesic_on g q p x) by (intros u Hu; apply HG; lra).
  assert (Ab : forall u, 0 <= u < x -> rt < c1 (q u)). { intros u Hu. apply (falls_above g a Q q p x Hh I0 I3 HGx rt); [rewrite E0; exact Hrt|rewrite RdE; exact Hroot|exact HF|exact Hu]. }
  assert (Rx : c1 (q x) = rt).
  { assert (SQ := f_sq g a Q q p S Hh I0 I3 HG x ltac:(lra)). rewrite RdE, Fx in SQ. destruct (Rtotal_order (c1 (q x)) rt) as [L|[L|L]]; [exfalso|exact L|exfalso; assert (P := Hpos _ L); lra].
    destruct (first_hit (fun u => c1 (q u)) rt x x) as (z & Hz & Ez & _); [intros u Hu; eapply D_continuous; apply (r_deriv g a Q q p S Hh HG); lra|rewrite E0; exact Hrt|lra|lra|].
    destruct (Rlt_le_dec z x) as [Lz|Lz]; [assert (A := Ab z ltac:(lra)); lra|]. replace z with x in Ez by lra. lra. }
  exists x. split; [lra|]. split; [exact Rx|]. split.
  { intros u u' Hu Hu'. destruct (mvt (fun w => c1 (q w)) (v a Q q p) u u') as (z & Hz & E); [lra|intros w Hw; apply (r_deriv g a Q q p S Hh HG); lra|]. cbv beta in E.
    assert (GEN : forall y y', 0 <= y < y' -> y' < x -> c1 (q y') < c1 (q y)).
    { intros y y' Hy Hy'. assert (HGy : geodesic_on g q p y') by (intros w Hw; apply HG; lra). apply (falls_mono g a Q q p y' Hh HGy); [intros w Hw; apply HF; lra|lra|lra]. }
    destruct (Rlt_le_dec u' x) as [L|L]; [apply GEN; lra|]. replace u' with x by lra. rewrite Rx. apply Ab. lra. }
  assert (Up : forall u, x < u <= S -> 0 < f a Q q p u).
  { intros u Hu. assert (DF := f_deriv g a Q q p S Hh I0 I3 HG x ltac:(lra)). rewrite E0, E1, Rx in DF. assert (SP := sigma_positive g a Q q p S Hh HG x ltac:(lra)). rewrite Rx in SP.
    set (l := dpotential g a Q q0 p0 rt / (2 * SigmaS rt (c2 (q x)) a)) in *. assert (Pl : 0 < l) by (apply Rdiv_lt_0_compat; lra).
    assert (NearUp : exists d, 0 < d /\ forall z, x < z < x + d -> 0 < f a Q q p z).
    { destruct DF as [_ DF]. specialize (DF x (fun P H => H)). assert (Pe : 0 < l / 2) by lra. destruct (DF (mkposreal _ Pe)) as [d Hd]. exists d. split; [apply cond_pos|]. intros z Hz.
      assert (Bz : Rabs (z - x) < d) by (rewrite Rabs_right; lra). specialize (Hd z Bz). unfold norm, minus, plus, opp, scal in Hd; cbn in Hd. unfold abs, mult in Hd; cbn in Hd.
      change (Rabs ((f a Q q p z + - f a Q q p x) + - ((z + - x) * l)) <= l / 2 * Rabs (z + - x)) in Hd. rewrite Fx, (Rabs_right (z + - x)) in Hd by lra. apply Rabs_le_between in Hd. assert (0 < (z - x) * l) by (apply Rmult_lt_0_compat; lra). nra. }
    destruct NearUp as (d & Pd & Hd). set (z := Rmin (x + d / 2) u). assert (Z1 := Rmin_l (x + d / 2) u). assert (Z2 := Rmin_r (x + d / 2) u). assert (Z3 : x < z) by (unfold z; apply Rmin_glb_lt; lra). fold z in Z1, Z2.
    assert (Fz := Hd z ltac:(lra)).
    assert (Rz : rt < c1 (q z)).
    { destruct (mvt (fun w => c1 (q w)) (v a Q q p) x z) as (y & Hy & E); [lra|intros w Hw; apply (r_deriv g a Q q p S Hh HG); lra|]. cbv beta in E. rewrite Rx in E.
      assert (GEN : exists y, x < y < z /\ c1 (q z) - c1 (q y) = v a Q q p y * 0 \/ True) by (exists x; right; exact Logic.I). clear GEN.
      set (h := (x + z) / 2). destruct (mvt (fun w => c1 (q w)) (v a Q q p) h z) as (y1 & Hy1 & Ey1); [unfold h; lra|intros w Hw; apply (r_deriv g a Q q p S Hh HG); unfold h in Hw; lra|].
      destruct (mvt (fun w => c1 (q w)) (v a Q q p) x h) as (y2 & Hy2 & Ey2); [unfold h; lra|intros w Hw; apply (r_deriv g a Q q p S Hh HG); unfold h in Hw; lra|]. cbv beta in Ey1, Ey2. rewrite Rx in Ey2.
      assert (Hh1 : x < h < z) by (unfold h; lra).
      assert (V1 : 0 < v a Q q p y1) by (unfold v; apply Rdiv_lt_0_compat; [apply Hd; lra|apply (sigma_positive g a Q q p S Hh HG); lra]).
      assert (V2 : 0 <= v a Q q p y2). { assert (0 < SigmaS (c1 (q y2)) (c2 (q y2)) a) by (apply (sigma_positive g a Q q p S Hh HG); lra). unfold v, Rdiv. apply Rmult_le_pos; [|left; apply Rinv_0_lt_compat; assumption]. destruct (Rlt_le_dec x y2) as [L|L]; [left; apply Hd; lra|replace y2 with x by lra; lra]. }
      assert (0 < v a Q q p y1 * (z - h)) by (apply Rmult_lt_0_compat; lra). assert (0 <= v a Q q p y2 * (h - x)) by (apply Rmult_le_pos; lra). lra. }
    apply (rises_from g a Q q p S Hh I0 I3 HG z); [lra|exact Fz| |lra]. intros w Hw Hle. rewrite RdE. apply Hpos. lra. }
  split; [|exact Up].
  intros u u' Hu Hu'. set (h := (u + u') / 2). assert (Hh1 : u < h < u') by (unfold h; lra).
  destruct (mvt (fun w => c1 (q w)) (v a Q q p) h u') as (y1 & Hy1 & Ey1); [lra|intros w Hw; apply (r_deriv g a Q q p S Hh HG); lra|].
  destruct (mvt (fun w => c1 (q w)) (v a Q q p) u h) as (y2 & Hy2 & Ey2); [lra|intros w Hw; apply (r_deriv g a Q q p S Hh HG); lra|]. cbv beta in Ey1, Ey2.
  assert (V1 : 0 < v a Q q p y1) by (unfold v; apply Rdiv_lt_0_compat; [apply Up; lra|apply (sigma_positive g a Q q p S Hh HG); lra]).
  assert (V2 : 0 <= v a Q q p y2). { assert (0 < SigmaS (c1 (q y2)) (c2 (q y2)) a) by (apply (sigma_positive g a Q q p S Hh HG); lra). unfold v, Rdiv. apply Rmult_le_pos; [|left; apply Rinv_0_lt_compat; assumption]. destruct (Rlt_le_dec x y2) as [L|L]; [left; apply Up; lra|replace y2 with x by lra; lra]. }
  assert (0 < v a Q q p y1 * (u' - h)) by (apply Rmult_lt_0_compat; lra). assert (0 <= v a Q q p y2 * (h - u)) by (apply Rmult_le_pos; lra). lra.
Qed.
(** scattered: in to rt, out again, and away to infinity *)
Theorem named_scattered : 0 < c0 p0 * c0 p0 + 2 * Ham g q0 p0 ->
  exists x y k, 0 < x < y /\ 0 < k /\ forall T, y <= T -> exists q p, q 0 = q0 /\ p 0 = p0 /\ geodesic_on g q p T /\ c1 (q x) = rt /\
    (forall t u, 0 <= t < u -> u <= x -> c1 (q u) < c1 (q t)) /\ (forall t u, x <= t < u -> u <= T -> c1 (q t) < c1 (q u)) /\
    forall t, y <= t <= T -> rt + k * (t - y) < c1 (q t).
Proof.
  intros He. destruct t_hole as (Hh & I0 & I3). destruct turns as (T0 & PT0 & HT0). assert (B1 := proj1 HB).
  assert (W : well_formed g) by apply Hh. assert (Sy : symmetric_program g) by apply Hh.
  set (y := T0 + 1). assert (Py : 0 < y) by (unfold y; lra). destruct (named_global s prms g a Q r1 q0 p0 HN HB y) as (q & p & E0 & E1 & HG & HR); [unfold y; lra|].
  assert (Some : exists t, 0 <= t < T0 /\ 0 <= f a Q q p t).
  { apply Classical_Prop.NNPP. intros Hn. apply (HT0 q p E0 E1); [intros t Ht; apply HG; unfold y; lra|]. intros t Ht. apply Rnot_le_lt. intros Hle. apply Hn. exists t. split; assumption. }
  destruct Some as (t & Ht & Hft). destruct (after_turn q p y ltac:(unfold y; lra) E0 E1 HG t ltac:(unfold y; lra) Hft) as (x & Hx & Rx & Dec & Inc & Up).
  assert (ty : t < y) by (unfold y; lra). assert (xy : x < y) by lra. assert (Ry : rt < c1 (q y)) by (rewrite <- Rx; apply Inc; lra).
  assert (B1t : r1 < rt). { rewrite <- Rx. apply HR. lra. }
  destruct (radial_grows a Q (c0 p0) (c3 p0) (carter a q0 p0 (2 * Ham g q0 p0)) (2 * Ham g q0 p0) (c1 (q y)) ltac:(lra) He) as (k & Hk & Hgr); [intros r Hr; apply Hpos; lra|].
  exists x, y, k. split; [lra|]. split; [exact Hk|]. intros T HT. destruct (named_global s prms g a Q r1 q0 p0 HN HB T) as (q' & p' & E0' & E1' & HG' & HR'); [lra|].
  assert (HGy : geodesic_on g q' p' y) by (intros w Hw; apply HG'; lra).
  assert (U := geodesic_unique g q' p' q p y W Sy HGy HG ltac:(congruence) ltac:(congruence)).
  assert (Ft : 0 <= f a Q q' p' t). { destruct (U t ltac:(unfold y; lra)) as [U1 U2]. unfold f in *. rewrite U1, U2. exact Hft. }
  destruct (after_turn q' p' T ltac:(lra) E0' E1' HG' t ltac:(unfold y in HT; lra) Ft) as (x' & Hx' & Rx' & Dec' & Inc' & Up').
  clearbody y. assert (XX : x' = x).
  { assert (Q1 : c1 (q x') = rt) by (rewrite <- (proj1 (U x' ltac:(lra))); exact Rx'). destruct (Rtotal_order x' x) as [L|[L|L]]; [exfalso|exact L|exfalso].
    - assert (Z := Dec x' x ltac:(lra) ltac:(lra)). lra.
    - assert (Z := Inc x x' ltac:(lra) ltac:(lra)). lra. }
  subst x'. exists q', p'. split; [exact E0'|]. split; [exact E1'|]. split; [exact HG'|]. split; [exact Rx'|]. split; [exact Dec'|]. split; [exact Inc'|].
  intros u Hu. assert (Ey : c1 (q' y) = c1 (q y)) by (rewrite (proj1 (U y ltac:(lra))); reflexivity).
  destruct (mvt (fun w => c1 (q' w)) (v a Q q' p') y u) as (z & Hz & E); [lra|intros w Hw; apply (r_deriv g a Q q' p' T Hh HG'); lra|]. cbv beta in E. rewrite Ey in E.
  assert (Rz : c1 (q y) <= c1 (q' z)). { rewrite <- Ey. destruct (Rlt_le_dec y z) as [L|L]; [left; apply Inc'; lra|replace z with y by lra; lra]. }
  assert (Vz := fast_out g a Q q' p' T Hh I0 I3 HG' k z ltac:(lra) (Up' z ltac:(lra)) Hk). rewrite E0', E1' in Vz. specialize (Vz (Hgr _ Rz)). assert (k * (u - y) <= v a Q q' p' z * (u - y)) by (apply Rmult_le_compat_r; lra). lra.
Qed.
End Turn.
