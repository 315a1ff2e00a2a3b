(** The third-order error term of the Fantasy integrator, and why orders 6 and 8 are only second-order accurate. *)
From Coq Require Import Reals List ZArith Lra Lia Bool.
From Coquelicot Require Import Coquelicot.
From Verif Require Import Base Calc DualModel DualSpec DualProofs DualDiff GeoUtilsModel GeoUtilsSpec GeoUtilsProofs
  FantasyModel FantasyProofs FantasyProofs2 FantasyProofs3 FantasyHam FantasySymp ProgCont WordSeries WordOrder FantasyOrder FantasyOrder2 FantasyOrder3.
Import ListNotations.
Open Scope R_scope.

Lemma monomial_zero c n M r : 0 < r -> (forall d, Rabs d < r -> Rabs (c * d ^ n) <= M * Rabs d ^ S n) -> c = 0.
Proof.
  intros Hr H. destruct (Req_dec c 0) as [E|E]; [exact E|exfalso].
  assert (Pc := Rabs_pos_lt c E). set (K := Rabs M + 1). assert (HK : 0 < K) by (unfold K; generalize (Rabs_pos M); lra).
  set (d := Rmin (r / 2) (Rabs c / (2 * K))).
  assert (Hd : 0 < d) by (unfold d; apply Rmin_pos; [lra|apply Rdiv_lt_0_compat; lra]).
  assert (D1 : d < r) by (unfold d; eapply Rle_lt_trans; [apply Rmin_l|lra]).
  assert (D2 : d * K <= Rabs c / 2).
  { apply Rle_trans with (Rabs c / (2 * K) * K); [apply Rmult_le_compat_r; [lra|unfold d; apply Rmin_r]|]. right. field. lra. }
  specialize (H d). rewrite (Rabs_pos_eq d) in H by lra. specialize (H D1). rewrite Rabs_mult, <- RPow_abs, (Rabs_pos_eq d) in H by lra.
  assert (Pd : 0 < d ^ n) by (apply pow_lt; exact Hd). cbn [pow] in H.
  assert (HM : M <= Rabs M) by apply RRle_abs. unfold K in D2.
  assert (Rabs c <= M * d).
  { apply Rmult_le_reg_r with (d ^ n); [exact Pd|]. lra. }
  nra.
Qed.

(** the coefficient of delta^3 in the error of the plain second-order scheme *)
Definition error3 (g : metricP) (w : R) (s : state) (e : pexpr) : R := hsum 3 (fun v => (coef strang v - / 6) * meaning (flat s) (wlie g w v e)).
Lemma leading_error g w ws (s : R -> state) e : well_formed g -> solves g w s -> hdef g (flat (s 0)) -> below 16 e = true -> defined_at (flat (s 0)) e ->
  wsum1 ws = 1 ->
  exists rho M, 0 < rho /\ 0 <= M /\ forall d, Rabs d < rho ->
    Rabs (meaning (flat (compose g w (composed ws) d (s 0))) e - meaning (flat (s d)) e - wsum3 ws * error3 g w (s 0) e * d ^ 3) <= M * Rabs d ^ 4.
Proof.
  intros Hwf Hsol Hd Hb He W.
  destruct (compose_expand g w (s 0) e 3 Hwf Hd Hb He (composed ws)) as (r1 & M1 & R1 & HM1 & H1).
  destruct (exact_expand g w s e 3 Hwf Hsol Hd Hb He) as (r2 & M2 & R2 & HM2 & H2).
  exists (Rmin r1 r2), (M1 + M2). split; [apply Rmin_pos; assumption|]. split; [lra|]. intros d Hds.
  assert (A := H1 d (s 0) ltac:(eapply Rlt_le_trans; [exact Hds|apply Rmin_l]) (near_self 16 r1 _ R1)).
  assert (B := H2 d ltac:(eapply Rlt_le_trans; [exact Hds|apply Rmin_r])).
  assert (E : series g w (coef (composed ws)) 3 d (s 0) e = series g w expcoef 3 d (s 0) e + wsum3 ws * error3 g w (s 0) e * d ^ 3).
  { unfold series. rewrite !wsum_hsum. cbn [rsum].
    assert (C : forall k, (k <= 2)%nat -> hsum k (fun v => coef (composed ws) v * (d ^ length v * meaning (flat (s 0)) (wlie g w v e))) = hsum k (fun v => expcoef v * (d ^ length v * meaning (flat (s 0)) (wlie g w v e)))).
    { intros k Hk. apply hsum_ext. intros v Hv. rewrite second_order_condition by (try exact W; lia). reflexivity. }
    rewrite (C 0%nat), (C 1%nat), (C 2%nat) by lia.
    assert (C3 : hsum 3 (fun v => coef (composed ws) v * (d ^ length v * meaning (flat (s 0)) (wlie g w v e))) = hsum 3 (fun v => expcoef v * (d ^ length v * meaning (flat (s 0)) (wlie g w v e))) + wsum3 ws * error3 g w (s 0) e * d ^ 3).
    { unfold error3. rewrite (Rmult_comm (wsum3 ws)), Rmult_assoc, Rmult_comm, <- hsum_scal, <- hsum_plus. apply hsum_ext. intros v Hv.
      destruct v as [|X [|Y [|Z [|? ?]]]]; try discriminate. rewrite composed_3, W. unfold expcoef. cbn [length]. replace (INR (fact 3)) with 6 by (cbn; ring). cbn [pow]. field. }
    rewrite C3. ring. }
  rewrite E in A. set (S0 := series g w expcoef 3 d (s 0) e) in *. set (c := wsum3 ws * error3 g w (s 0) e * d ^ 3) in *.
  replace (meaning (flat (compose g w (composed ws) d (s 0))) e - meaning (flat (s d)) e - c) with ((meaning (flat (compose g w (composed ws) d (s 0))) e - (S0 + c)) - (meaning (flat (s d)) e - S0)) by ring.
  eapply Rle_trans; [apply Rabs_triang|]. rewrite Rabs_Ropp. lra.
Qed.

(** ---- the metric diag(-1, x, 1, 1): H = (-p_t^2 + x p_x^2 + ...) / 2 ---- *)
Lemma lin_shear_A t a b c' d : shear (HA lin_metric) t (mkQ4 (mkQ4 0 a 0 0) (mkQ4 0 b 0 0) (mkQ4 0 c' 0 0) (mkQ4 0 d 0 0)) =
  mkQ4 (mkQ4 0 a 0 0) (mkQ4 0 (b - t * (/ 2 * d * d)) 0 0) (mkQ4 0 (c' + t * (a * d)) 0 0) (mkQ4 0 d 0 0).
Proof. apply flat_inj. intros i Hi. unfold shear. rewrite flat_unflat by exact Hi. revert i Hi. apply lt16; cbv -[Rplus Rmult Ropp Rminus Rdiv Rinv IZR]; field. Qed.
Lemma lin_shear_B t a b c' d : shear (HB lin_metric) t (mkQ4 (mkQ4 0 a 0 0) (mkQ4 0 b 0 0) (mkQ4 0 c' 0 0) (mkQ4 0 d 0 0)) =
  mkQ4 (mkQ4 0 (a + t * (c' * b)) 0 0) (mkQ4 0 b 0 0) (mkQ4 0 c' 0 0) (mkQ4 0 (d - t * (/ 2 * b * b)) 0 0).
Proof. apply flat_inj. intros i Hi. unfold shear. rewrite flat_unflat by exact Hi. revert i Hi. apply lt16; cbv -[Rplus Rmult Ropp Rminus Rdiv Rinv IZR]; field. Qed.
Lemma lin_mixed t s : flow_mixed s t 0 = s.
Proof.
  unfold flow_mixed. rewrite !Rmult_0_r, !Rmult_0_l, cos_0, sin_0. destruct s as [[a0 a1 a2 a3] [b0 b1 b2 b3] [e0 e1 e2 e3] [f0 f1 f2 f3]].
  unfold vscal, vadd, vsub, q4map, q4map2, q1, p1, q2, p2. cbn [c0 c1 c2 c3]. repeat (apply Q4_eq; cbn [c0 c1 c2 c3]); field.
Qed.
Definition lin_q (t : R) : V4 := mkQ4 0 ((1 + t / 2) * (1 + t / 2)) 0 0.
Definition lin_p (t : R) : V4 := mkQ4 0 (/ (1 + t / 2)) 0 0.
Lemma lin_point t : 1 + t / 2 <> 0 -> forall k, (k < 4)%nat ->
    is_derive (fun u => q4nth (lin_q u) k) t (q4nth (mv (metric_meaning lin_metric (q4nth (lin_q t))) (lin_p t)) k)
    /\ exists D, is_derive (fun x => Ham lin_metric (vupd (lin_q t) k x) (lin_p t)) (q4nth (lin_q t) k) D /\ is_derive (fun u => q4nth (lin_p u) k) t (- D).
Proof.
  intros Hz.
  assert (HH : forall v : V4, Ham lin_metric v (lin_p t) = / 2 * (q4nth v 1 * (/ (1 + t / 2) * / (1 + t / 2)))).
  { intros. unfold Ham, lin_p. generalize (/ (1 + t / 2)). intros z. cbv -[Rplus Rmult Ropp Rminus Rdiv Rinv IZR]. ring. }
  assert (HK : forall k x, k <> 1%nat -> Ham lin_metric (vupd (lin_q t) k x) (lin_p t) = / 2 * ((1 + t / 2) * (1 + t / 2) * (/ (1 + t / 2) * / (1 + t / 2)))).
  { intros k x Hk. rewrite HH, vupd_nth by lia. unfold upd. destruct (Nat.eqb_spec 1 k); [congruence|]. reflexivity. }
  assert (H1 : forall x, Ham lin_metric (vupd (lin_q t) 1 x) (lin_p t) = / 2 * (x * (/ (1 + t / 2) * / (1 + t / 2)))).
  { intros x. rewrite HH, vupd_nth by lia. reflexivity. }
  apply q4_cases; (split; [cbn [q4nth lin_q c0 c1 c2 c3]|]).
  - eapply D_eq; [apply D_const|]. cbv -[Rplus Rmult Ropp Rminus Rdiv Rinv IZR]. ring.
  - exists 0. split; [|cbn [q4nth lin_p c0 c1 c2 c3]; eapply D_eq; [apply D_const|ring]]. eapply D_ext; [intros x; symmetry; apply HK; lia|]. apply D_const.
  - assert (V : q4nth (mv (metric_meaning lin_metric (q4nth (lin_q t))) (lin_p t)) 1 = 1 + t / 2).
    { unfold lin_p. transitivity ((1 + t / 2) * (1 + t / 2) * / (1 + t / 2)); [|field; lra]. generalize (/ (1 + t / 2)). intros z. cbv -[Rplus Rmult Ropp Rminus Rdiv Rinv IZR]. ring. }
    apply (D_eq _ _ (1 + t / 2)); [auto_derive; [exact I|field]|symmetry; exact V].
  - exists (/ 2 * (/ (1 + t / 2) * / (1 + t / 2))). split.
    + eapply D_ext; [intros x; symmetry; apply H1|]. auto_derive; [exact I|ring].
    + cbn [q4nth lin_p c0 c1 c2 c3]. auto_derive; [exact Hz|field; lra].
  - eapply D_eq; [apply D_const|]. cbv -[Rplus Rmult Ropp Rminus Rdiv Rinv IZR]. ring.
  - exists 0. split; [|cbn [q4nth lin_p c0 c1 c2 c3]; eapply D_eq; [apply D_const|ring]]. eapply D_ext; [intros x; symmetry; apply HK; lia|]. apply D_const.
  - eapply D_eq; [apply D_const|]. cbv -[Rplus Rmult Ropp Rminus Rdiv Rinv IZR]. ring.
  - exists 0. split; [|cbn [q4nth lin_p c0 c1 c2 c3]; eapply D_eq; [apply D_const|ring]]. eapply D_ext; [intros x; symmetry; apply HK; lia|]. apply D_const.
Qed.
Lemma lin_geodesic : geodesic lin_metric lin_q lin_p.
Proof.
  exists (mkposreal 1 Rlt_0_1). intros t Ht. unfold ball in Ht; cbn in Ht. unfold AbsRing_ball, abs, minus, plus, opp in Ht; cbn in Ht.
  apply lin_point. rewrite Ropp_0, Rplus_0_r in Ht; apply Rabs_def2 in Ht; lra.
Qed.
Lemma lin_s0 : doubled (lin_q 0) (lin_p 0) = mkQ4 (mkQ4 0 1 0 0) (mkQ4 0 1 0 0) (mkQ4 0 1 0 0) (mkQ4 0 1 0 0).
Proof. unfold doubled, lin_q, lin_p. replace (1 + 0 / 2) with 1 by field. rewrite Rmult_1_r, Rinv_1. reflexivity. Qed.
Lemma lin_strang d : flat (compose lin_metric 0 (composed [1]) d (doubled (lin_q 0) (lin_p 0))) 1 = 1 + d + / 4 * d ^ 2 - / 8 * d ^ 3.
Proof.
  rewrite lin_s0. cbn [composed app scale strang map fst snd compose gflow]. rewrite lin_shear_A, lin_shear_B, lin_mixed, lin_shear_B, lin_shear_A.
  cbv [flat Nat.div Nat.divmod Nat.modulo fst snd Nat.sub q4nth c0 c1 c2 c3]. field.
Qed.
Lemma lin_error3 : error3 lin_metric 0 (doubled (lin_q 0) (lin_p 0)) (EVar 1) = - / 8.
Proof.
  assert (Hs := geodesic_solves lin_metric 0 lin_q lin_p lin_wf lin_sym (lin_defined _) lin_geodesic).
  destruct (leading_error lin_metric 0 [1] _ (EVar 1) lin_wf Hs (doubled_hdef _ _ _ lin_wf (lin_defined _)) eq_refl I) as (rho & M & Hr & HM & H).
  { unfold wsum1. cbn [fold_right]. ring. }
  set (E := error3 lin_metric 0 (doubled (lin_q 0) (lin_p 0)) (EVar 1)) in *.
  enough (- / 8 - E = 0) by lra. apply (monomial_zero (- / 8 - E) 3 M rho Hr). intros d Hd. specialize (H d Hd). cbn [meaning] in H. rewrite lin_strang in H.
  replace (wsum3 [1]) with 1 in H by (unfold wsum3; cbn; ring).
  replace (flat (doubled (lin_q d) (lin_p d)) 1) with ((1 + d / 2) * (1 + d / 2)) in H by reflexivity.
  replace ((- / 8 - E) * d ^ 3) with (1 + d + / 4 * d ^ 2 - / 8 * d ^ 3 - (1 + d / 2) * (1 + d / 2) - 1 * E * d ^ 3) by field. exact H.
Qed.
Lemma orders_68_not_third order f : order = 6%nat \/ order = 8%nat -> integrator_of order (metricfun_of lin_metric) 0 = Ok f -> ~ local_order lin_metric f 3.
Proof.
  intros Ho Hf Hl. destruct (Hl lin_q lin_p (lin_defined _) lin_geodesic) as (r1 & M1 & R1 & H1).
  assert (Hh := doubled_hdef lin_metric (lin_q 0) (lin_p 0) lin_wf (lin_defined _)).
  destruct (step_compose order lin_metric 0 f _ Hf lin_wf lin_sym Hh) as (r0 & R0 & H0).
  assert (Hs := geodesic_solves lin_metric 0 lin_q lin_p lin_wf lin_sym (lin_defined _) lin_geodesic).
  destruct (leading_error lin_metric 0 (weights order) _ (EVar 1) lin_wf Hs Hh eq_refl I) as (r2 & M2 & R2 & HM2 & H2).
  { rewrite <- powsum_1. apply weights_sum. eapply supported_orders. exact Hf. }
  apply (weights_68_cubic order Ho). rewrite powsum_3.
  enough (- / 8 * wsum3 (weights order) = 0) by lra.
  apply (monomial_zero _ 3 (M1 + M2) (Rmin r0 (Rmin r1 r2))); [repeat apply Rmin_pos; assumption|]. intros d Hd.
  assert (L0 : Rabs d < r0) by (eapply Rlt_le_trans; [exact Hd|apply Rmin_l]).
  assert (L1 : Rabs d < r1) by (eapply Rlt_le_trans; [exact Hd|eapply Rle_trans; [apply Rmin_r|apply Rmin_l]]).
  assert (L2 : Rabs d < r2) by (eapply Rlt_le_trans; [exact Hd|eapply Rle_trans; [apply Rmin_r|apply Rmin_r]]).
  specialize (H2 d L2). rewrite lin_error3 in H2. cbn [meaning] in H2.
  destruct (H1 d L1) as (s' & E & B). rewrite (H0 d L0) in E. apply Ok_inj in E. specialize (B 0%nat 1%nat ltac:(lia) ltac:(lia)). rewrite <- E in B.
  change (mnth (compose lin_metric 0 (composed (weights order)) d (doubled (lin_q 0) (lin_p 0))) 0 1) with (flat (compose lin_metric 0 (composed (weights order)) d (doubled (lin_q 0) (lin_p 0))) 1) in B.
  change (mnth (doubled (lin_q d) (lin_p d)) 0 1) with (flat (doubled (lin_q d) (lin_p d)) 1) in B.
  set (a := flat (compose _ _ _ _ _) 1) in *. set (b := flat (doubled (lin_q d) (lin_p d)) 1) in *. clearbody a b.
  replace (- / 8 * wsum3 (weights order) * d ^ 3) with ((a - b) - (a - b - wsum3 (weights order) * - / 8 * d ^ 3)) by ring.
  eapply Rle_trans; [apply Rabs_triang|]. rewrite Rabs_Ropp. rewrite Rmult_plus_distr_r. lra.
Qed.
