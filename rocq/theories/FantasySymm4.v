(** The symmetries for Geodesic objects. *)
From Coq Require Import Reals List ZArith Lra Lia Bool String.
From Verif Require Import Base DualModel DualSpec Calc GeoUtilsModel GeoUtilsProofs FantasyModel FantasyProofs FantasyProofs2 FantasyProofs3 GeodesicModel FantasySymm FantasySymm2 FantasySymm3.
Import ListNotations.
Open Scope R_scope.

(** ** reversing t and phi *)
Definition tphi_e : V4 := mkQ4 (-1) 1 1 (-1).
Definition vzero : V4 := mkQ4 0 0 0 0.
(** no t-r, t-theta, phi-r, phi-theta entries *)
Definition circular (g : metricP) : Prop := forall i j, In (i, j) [(0,1);(0,2);(1,0);(2,0);(3,1);(3,2);(1,3);(2,3)]%nat -> mnth g i j = EConst 0.
Lemma signs_tphi : signs tphi_e. Proof. intros i Hi. ix i Hi; cbn; ring. Qed.
Lemma flipm_tphi M : (forall i j, In (i, j) [(0,1);(0,2);(1,0);(2,0);(3,1);(3,2);(1,3);(2,3)]%nat -> mnth M i j = 0) -> flipm tphi_e M = M.
Proof.
  intros H.
  assert (H1 := H 0%nat 1%nat ltac:(cbn; tauto)). assert (H2 := H 0%nat 2%nat ltac:(cbn; tauto)). assert (H3 := H 1%nat 0%nat ltac:(cbn; tauto)). assert (H4 := H 2%nat 0%nat ltac:(cbn; tauto)).
  assert (H5 := H 3%nat 1%nat ltac:(cbn; tauto)). assert (H6 := H 3%nat 2%nat ltac:(cbn; tauto)). assert (H7 := H 1%nat 3%nat ltac:(cbn; tauto)). assert (H8 := H 2%nat 3%nat ltac:(cbn; tauto)).
  unfold mnth in H1, H2, H3, H4, H5, H6, H7, H8. cbn [q4nth] in H1, H2, H3, H4, H5, H6, H7, H8.
  unfold tphi_e. apply Q4_eq; vring; ring [H1 H2 H3 H4 H5 H6 H7 H8].
Qed.
Lemma metric_at_entry g q M i j : metric_at g q = Ok M -> (i < 4)%nat -> (j < 4)%nat -> mnth g i j = EConst 0 -> mnth M i j = 0.
Proof.
  intros H Hi Hj E. unfold metric_at in H. apply bindR_Ok in H. destruct H as (m & Hm & H).
  assert (Ee := run_metric_entries _ _ _ Hm i j Hi Hj). rewrite E in Ee. cbn [runP] in Ee. apply Ok_inj in Ee.
  assert (Hr := q4seq_Ok _ _ H i Hi). rewrite q4nth_map in Hr by assumption. assert (He := q4seq_Ok _ _ Hr j Hj). rewrite q4nth_map in He by assumption.
  unfold mnth in Ee. rewrite <- Ee in He. cbn [pf_only] in He. apply Ok_inj in He. symmetry. exact He.
Qed.
Lemma jac_entry g q k J i j : jacobian_g g q k = Ok J -> (i < 4)%nat -> (j < 4)%nat -> mnth g i j = EConst 0 -> mnth g j i = EConst 0 -> mnth J i j = 0.
Proof.
  intros H Hi Hj E1 E2. destruct (jacobian_entries _ _ _ _ H i j Hi Hj) as (m & Hm & ->).
  assert (Ee := run_metric_entries _ _ _ Hm (Nat.min i j) (Nat.max i j) ltac:(lia) ltac:(lia)).
  assert (X : mnth g (Nat.min i j) (Nat.max i j) = EConst 0).
  { destruct (Nat.le_ge_cases i j); [rewrite Nat.min_l, Nat.max_r by lia|rewrite Nat.min_r, Nat.max_l by lia]; assumption. }
  rewrite X in Ee. cbn [runP] in Ee. apply Ok_inj in Ee. rewrite <- Ee. reflexivity.
Qed.
Lemma runP_indep2 e env env' : vars_below4 e = true -> mentions 0 e = false -> mentions 3 e = false -> (forall i, (i = 1 \/ i = 2)%nat -> env i = env' i) -> runP env e = runP env' e.
Proof.
  intros V M0 M3 H. transitivity (runP (fun i => if Nat.eqb i 0 then env' 0%nat else env i) e).
  - apply (runP_indep 0); [exact V|exact M0|]. intros i Hi N. rewrite (proj2 (Nat.eqb_neq _ _) N). reflexivity.
  - apply (runP_indep 3); [exact V|exact M3|]. intros i Hi N. destruct (Nat.eqb_spec i 0) as [-> |N0]; [reflexivity|]. apply H. lia.
Qed.
Lemma move_tphi q i : (i = 1 \/ i = 2)%nat -> q4nth (move tphi_e vzero q) i = q4nth q i.
Proof. unfold move, tphi_e, vzero, vadd, flipv, q4map2. intros [-> | ->]; cbn [q4nth c0 c1 c2 c3]; ring. Qed.
Lemma vmat_one J : q4map (vscal 1) J = J.
Proof. apply Q4_eq; vring; ring. Qed.
Lemma tphi_respects g : well_formed g -> independent_of g 0 -> independent_of g 3 -> circular g -> respects (metricfun_of g) tphi_e vzero.
Proof.
  intros W I0 I3 C. split.
  - intros q. cbn [metricfun_of gval].
    assert (E : metric_at g (move tphi_e vzero q) = metric_at g q).
    { unfold metric_at. rewrite (run_metric_ext g _ (fun i => PF (q4nth q i))); [reflexivity|]. intros i j Hi Hj.
      apply runP_indep2; [apply W; assumption|apply I0; assumption|apply I3; assumption|]. intros l Hl. rewrite move_tphi by exact Hl. reflexivity. }
    rewrite E. destruct (metric_at g q) as [M|] eqn:EM; cbn [mapR]; [|reflexivity]. rewrite flipm_tphi; [reflexivity|].
    intros i j Hij. apply (metric_at_entry g q M); [exact EM| | |apply C; exact Hij]; cbn in Hij; repeat (destruct Hij as [Hij|Hij]; [injection Hij as <- <-; lia|]); contradiction.
  - intros q k Hk. cbn [metricfun_of gjac].
    assert (E : jacobian_g g (move tphi_e vzero q) (Z.of_nat k) = jacobian_g g q (Z.of_nat k)).
    { assert (E : run_metric g (dual_coords (move tphi_e vzero q) (Z.to_nat (Z.of_nat k))) = run_metric g (dual_coords q (Z.to_nat (Z.of_nat k)))).
      { apply run_metric_ext. intros i j Hi Hj. apply runP_indep2; [apply W; assumption|apply I0; assumption|apply I3; assumption|].
        intros l Hl. unfold dual_coords. rewrite move_tphi by exact Hl. reflexivity. }
      unfold jacobian_g, jac_upper, diff_g. rewrite E. reflexivity. }
    rewrite E. destruct (jacobian_g g q (Z.of_nat k)) as [J|] eqn:EJ; cbn [mapR]; [|reflexivity]. apply f_equal.
    rewrite flipm_tphi.
    2: { intros i j Hij. assert (Hji : In (j, i) [(0,1);(0,2);(1,0);(2,0);(3,1);(3,2);(1,3);(2,3)]%nat) by (cbn in *; intuition congruence).
         apply (jac_entry g q (Z.of_nat k)); [exact EJ| | |apply C; exact Hij|apply C; exact Hji]; cbn in Hij; repeat (destruct Hij as [Hij|Hij]; [injection Hij as <- <-; lia|]); contradiction. }
    destruct (Nat.eq_dec k 1) as [-> |N1]; [symmetry; apply vmat_one|]. destruct (Nat.eq_dec k 2) as [-> |N2]; [symmetry; apply vmat_one|].
    assert (Ik : independent_of g k) by (assert (K : (k = 0 \/ k = 3)%nat) by lia; destruct K as [-> | ->]; assumption).
    assert (Z := jac_cyclic g k q J Hk Ik EJ). assert (Zm : J = mtab (fun _ _ => 0)).
    { apply Q4_eq; apply Q4_eq; (apply (Z 0 0)%nat || apply (Z 0 1)%nat || apply (Z 0 2)%nat || apply (Z 0 3)%nat
      || apply (Z 1 0)%nat || apply (Z 1 1)%nat || apply (Z 1 2)%nat || apply (Z 1 3)%nat
      || apply (Z 2 0)%nat || apply (Z 2 1)%nat || apply (Z 2 2)%nat || apply (Z 2 3)%nat
      || apply (Z 3 0)%nat || apply (Z 3 1)%nat || apply (Z 3 2)%nat || apply (Z 3 3)%nat); lia. }
    rewrite Zm. apply Q4_eq; vring; ring.
Qed.
Lemma builtin_circular : circular schE /\ (forall a, circular (kerrE a)) /\ (forall a Q, circular (kerrnewmanE a Q)).
Proof.
  split; [|split; intros]; intros i j H; cbn in H; repeat (destruct H as [H|H]; [injection H as <- <-; reflexivity|]); contradiction.
Qed.

(** ** reversing the momentum is integrating backwards, for every metric *)
Definition negv (v : V4) : V4 := vscal (-1) v.
Definition negp (s : state) : state := mkQ4 (q1 s) (negv (p1 s)) (q2 s) (negv (p2 s)).
Lemma quad_neg J p : dot (mv J (negv p)) (negv p) = dot (mv J p) p.
Proof. unfold negv, vscal, mv, q4map, dot; cbn [c0 c1 c2 c3]. ring. Qed.
Lemma ham_grad_neg G q p : ham_grad G q (negv p) = ham_grad G q p.
Proof.
  unfold ham_grad, part_ham_flow. f_equal. apply q4tab_ext. intros i Hi. destruct (gjac G q i); cbn [bindR mapR]; [rewrite quad_neg|]; reflexivity.
Qed.
Lemma apply_A_neg G d s : apply_A G (- d) (negp s) = mapR negp (apply_A G d s).
Proof.
  unfold apply_A, flow_A, negp, q1, p1, q2, p2; cbn [c0 c1 c2 c3]. rewrite ham_grad_neg. destruct (ham_grad G (c0 s) (c3 s)) as [h|]; cbn [mapR bindR]; [|reflexivity].
  destruct (gval G (c0 s)); cbn [mapR bindR fst snd c0 c1 c2 c3]; [|reflexivity]. apply f_equal.
  unfold negv. apply Q4_eq; cbn [c0 c1 c2 c3]; try reflexivity; vring; ring.
Qed.
Lemma apply_B_neg G d s : apply_B G (- d) (negp s) = mapR negp (apply_B G d s).
Proof.
  unfold apply_B, flow_B, negp, q1, p1, q2, p2; cbn [c0 c1 c2 c3]. rewrite ham_grad_neg. destruct (ham_grad G (c2 s) (c1 s)) as [h|]; cbn [mapR bindR]; [|reflexivity].
  destruct (gval G (c2 s)); cbn [mapR bindR fst snd c0 c1 c2 c3]; [|reflexivity]. apply f_equal.
  unfold negv. apply Q4_eq; cbn [c0 c1 c2 c3]; try reflexivity; vring; ring.
Qed.
Lemma mixed_neg s d w : flow_mixed (negp s) (- d) w = negp (flow_mixed s d w).
Proof.
  unfold flow_mixed. cbv zeta. replace (2 * w * - d) with (- (2 * w * d)) by ring. rewrite cos_neg, sin_neg. generalize (cos (2 * w * d)) (sin (2 * w * d)). intros co si.
  unfold negp, q1, p1, q2, p2. cbn [c0 c1 c2 c3]. unfold negv. apply Q4_eq; cbn [c0 c1 c2 c3]; vring; field.
Qed.
Definition backward (f : R -> state -> Res state) : Prop := forall d s, f (- d) (negp s) = mapR negp (f d s).
Lemma ord_2_neg G w : backward (ord_2 G w).
Proof.
  intros d s. unfold ord_2. replace (/ 2 * - d) with (- (/ 2 * d)) by ring.
  rewrite apply_A_neg. destruct (apply_A G (/ 2 * d) s) as [s1|]; cbn [mapR bindR]; [|reflexivity].
  rewrite apply_B_neg. destruct (apply_B G (/ 2 * d) s1) as [s2|]; cbn [mapR bindR]; [|reflexivity].
  rewrite mixed_neg, apply_B_neg. destruct (apply_B G (/ 2 * d) (flow_mixed s2 d w)) as [s3|]; cbn [mapR bindR]; [|reflexivity].
  apply apply_A_neg.
Qed.
Lemma triple_neg o f : backward f -> backward (triple o f).
Proof.
  intros H d s. unfold triple. cbv zeta. rewrite <- !Ropp_mult_distr_l.
  rewrite H. destruct (f (d * snd (Z01 o)) s) as [s1|]; cbn [mapR bindR]; [|reflexivity].
  rewrite H. destruct (f (d * fst (Z01 o)) s1) as [s2|]; cbn [mapR bindR]; [|reflexivity]. apply H.
Qed.
Lemma integrator_neg o G w f : integrator_of o G w = Ok f -> backward f.
Proof.
  intros H. do 9 (destruct o as [|o]; [first [discriminate | apply Ok_inj in H; subst f;
    first [apply ord_2_neg | repeat apply triple_neg; apply ord_2_neg]] |]). discriminate.
Qed.
Definition negI (I : integ) : integ :=
  mkinteg (i_metric I) (- i_delta I) (i_omega I) (i_order I) (i_rtol I) (i_atol I) (i_time_like I) (i_suppress I) (i_step_num I) (negp (i_res I)) (map negp (i_results I)).
Lemma step_neg strict I : step strict (negI I) = (negI (fst (step strict I)), snd (step strict I)).
Proof.
  unfold step. change (i_order (negI I)) with (i_order I). change (i_metric (negI I)) with (i_metric I). change (i_omega (negI I)) with (i_omega I).
  destruct (integrator_of (i_order I) (i_metric I) (i_omega I)) as [f|x] eqn:F; [|reflexivity].
  change (i_delta (negI I)) with (- i_delta I). change (i_res (negI I)) with (negp (i_res I)).
  rewrite (integrator_neg _ _ _ _ F). destruct (f (i_delta I) (i_res I)) as [arr|x]; cbn [mapR]; [|reflexivity].
  assert (U : unstable (negI I) (negp arr) = unstable I arr).
  { unfold unstable, negI, negp, q1, p1; cbn [i_metric i_time_like i_rtol i_atol c0 c1]. destruct (gval (i_metric I) (c0 arr)); [|reflexivity]. rewrite quad_neg. reflexivity. }
  rewrite U. change (i_suppress (negI I)) with (i_suppress I).
  destruct (negb (i_suppress I) && unstable I arr && strict)%bool; unfold negI; cbn [fst snd i_metric i_delta i_omega i_order i_rtol i_atol i_time_like i_suppress i_step_num i_res i_results];
  rewrite ?map_app; reflexivity.
Qed.
Lemma run_steps_neg n : forall I, run_steps n (negI I) = mapR negI (run_steps n I).
Proof.
  induction n as [|n IH]; intros I; [reflexivity|]. cbn [run_steps]. rewrite step_neg.
  destruct (step false I) as [I2 [w|x]]; cbn [fst snd]; [|reflexivity]. apply IH.
Qed.
Definition neg_delta (kw : kwargs) : kwargs := mkkw (k_steps kw) (- k_delta kw) (k_rtol kw) (k_atol kw) (k_order kw) (k_omega kw) (k_suppress kw).
Lemma trajectory_backward g q0 p0 tl cart kw :
  calculate_trajectory g q0 (negv p0) tl cart (neg_delta kw)
  = mapR (fun t => (fst t, map (fun r : row => (fst r, negv (snd r))) (snd t))) (calculate_trajectory g q0 p0 tl cart kw).
Proof.
  unfold calculate_trajectory, mk_integrator. unfold neg_delta at 1 2. cbn [k_order k_omega]. destruct (integrator_of _ _ _); cbn [bindR mapR]; [|reflexivity].
  change (mkinteg (metricfun_of g) (k_delta (neg_delta kw)) (k_omega (neg_delta kw)) (k_order (neg_delta kw)) (k_rtol (neg_delta kw)) (k_atol (neg_delta kw)) tl (k_suppress (neg_delta kw)) 0
    (mkQ4 q0 (negv p0) q0 (negv p0)) [])
   with (negI (mkinteg (metricfun_of g) (k_delta kw) (k_omega kw) (k_order kw) (k_rtol kw) (k_atol kw) tl (k_suppress kw) 0 (mkQ4 q0 p0 q0 p0) [])).
  change (k_steps (neg_delta kw)) with (k_steps kw).
  rewrite run_steps_neg. destruct (run_steps _ _) as [I|x]; cbn [bindR mapR]; [|reflexivity].
  change (i_results (negI I)) with (map negp (i_results I)).
  destruct (i_results I) as [|s l]; [reflexivity|]. cbn [map mapR]. destruct cart; cbn [mapR fst snd map]; rewrite !map_map; reflexivity.
Qed.

(** ** Geodesic objects *)
Lemma trajectory_cart g q0 p0 tl kw : calculate_trajectory g q0 p0 tl true kw
  = mapR (fun t => (fst t, map (fun r : row => (to_cartesian (fst r), snd r)) (snd t))) (calculate_trajectory g q0 p0 tl false kw).
Proof.
  unfold calculate_trajectory. destruct (mk_integrator _ _ _ _ _ _ _ _ _ _); cbn [bindR mapR]; [|reflexivity].
  destruct (run_steps _ _) as [I|]; cbn [bindR mapR]; [|reflexivity]. destruct (i_results I); reflexivity.
Qed.
(** rotation by s about the axis: phi + s, or the rotation matrix in the x-y plane *)
Definition rotate_point (cart : bool) (s : R) (q : V4) : V4 :=
  if cart then mkQ4 (c0 q) (c1 q * cos s - c2 q * sin s) (c1 q * sin s + c2 q * cos s) (c3 q)
  else mkQ4 (c0 q) (c1 q) (c2 q) (c3 q + s).
(** reflection in the equatorial plane: theta -> pi - theta, or z -> - z *)
Definition mirror_point (cart : bool) (q : V4) : V4 :=
  if cart then mkQ4 (c0 q) (c1 q) (c2 q) (- c3 q) else mkQ4 (c0 q) (c1 q) (PI - c2 q) (c3 q).
Definition mirror_momentum (p : V4) : V4 := mkQ4 (c0 p) (c1 p) (- c2 p) (c3 p).
Definition map_geo (fp : bool -> V4 -> V4) (fm : V4 -> V4) (cart : bool) (o : geodesic) : geodesic :=
  mkgeo (fp false (geo_position o)) (fm (geo_momentum o))
    (fst (geo_trajectory o), map (fun r : row => (fp cart (fst r), fm (snd r))) (snd (geo_trajectory o))).
Definition every_metric (m : metric_arg) (P : metricP -> Prop) : Prop :=
  forall call prms g, resolve_metric m = Ok call -> call prms = Ok g -> P g.

Lemma to_cart_rotate s q : to_cartesian (rotate_point false s q) = rotate_point true s (to_cartesian q).
Proof. unfold rotate_point, to_cartesian. cbv zeta. cbn [c0 c1 c2 c3]. rewrite cos_plus, sin_plus. apply Q4_eq; cbn [c0 c1 c2 c3]; ring. Qed.
Lemma to_cart_mirror q : to_cartesian (mirror_point false q) = mirror_point true (to_cartesian q).
Proof.
  unfold mirror_point, to_cartesian. cbv zeta. cbn [c0 c1 c2 c3]. rewrite sin_PI_x. replace (cos (PI - c2 q)) with (- cos (c2 q)).
  - apply Q4_eq; cbn [c0 c1 c2 c3]; ring.
  - replace (PI - c2 q) with (- c2 q + PI) by ring. rewrite neg_cos, cos_neg. reflexivity.
Qed.
Lemma move_rot s q : move ones (along 3 s) q = rotate_point false s q.
Proof. unfold ones, along, rotate_point, q4tab. cbn [Nat.eqb]. vring; ring. Qed.
Lemma move_mir q : move mirror_e mirror_b q = mirror_point false q.
Proof. unfold mirror_e, mirror_b, mirror_point. vring; ring. Qed.
Lemma flip_mir p : flipv mirror_e p = mirror_momentum p.
Proof. unfold mirror_e, mirror_momentum. vring; ring. Qed.

Lemma trajectory_rotate g q0 p0 tl cart kw s : well_formed g -> independent_of g 3 ->
  calculate_trajectory g (rotate_point false s q0) p0 tl cart kw
  = mapR (fun t => (fst t, map (fun r : row => (rotate_point cart s (fst r), snd r)) (snd t))) (calculate_trajectory g q0 p0 tl cart kw).
Proof.
  intros W I. assert (E : calculate_trajectory g (rotate_point false s q0) p0 tl false kw
    = mapR (fun t => (fst t, map (fun r : row => (rotate_point false s (fst r), snd r)) (snd t))) (calculate_trajectory g q0 p0 tl false kw)).
  { rewrite <- move_rot. rewrite <- (flipv_ones p0) at 1. rewrite (trajectory_move g ones (along 3 s) q0 p0 tl kw signs_ones (translation g 3 s W I)).
    destruct (calculate_trajectory g q0 p0 tl false kw) as [[st rows]|]; [|reflexivity]. cbn [mapR]. unfold move_rows, move_row. cbn [fst snd]. do 2 apply f_equal.
    apply map_ext. intros r. rewrite move_rot, flipv_ones. reflexivity. }
  destruct cart; [|exact E]. rewrite !trajectory_cart, E. destruct (calculate_trajectory g q0 p0 tl false kw) as [[st rows]|]; [|reflexivity].
  cbn [mapR fst snd]. rewrite !map_map. do 2 apply f_equal. apply map_ext. intros r. cbn [fst snd]. rewrite to_cart_rotate. reflexivity.
Qed.
Lemma trajectory_mirror g q0 p0 tl cart kw : mirror_program g ->
  calculate_trajectory g (mirror_point false q0) (mirror_momentum p0) tl cart kw
  = mapR (fun t => (fst t, map (fun r : row => (mirror_point cart (fst r), mirror_momentum (snd r))) (snd t))) (calculate_trajectory g q0 p0 tl cart kw).
Proof.
  intros P. assert (E : calculate_trajectory g (mirror_point false q0) (mirror_momentum p0) tl false kw
    = mapR (fun t => (fst t, map (fun r : row => (mirror_point false (fst r), mirror_momentum (snd r))) (snd t))) (calculate_trajectory g q0 p0 tl false kw)).
  { rewrite <- move_mir, <- flip_mir. rewrite (trajectory_move g _ _ q0 p0 tl kw signs_mirror (mirror_respects g P)).
    destruct (calculate_trajectory g q0 p0 tl false kw) as [[st rows]|]; [|reflexivity]. cbn [mapR]. unfold move_rows, move_row. cbn [fst snd]. do 2 apply f_equal.
    apply map_ext. intros r. rewrite move_mir, flip_mir. reflexivity. }
  destruct cart; [|exact E]. rewrite !trajectory_cart, E. destruct (calculate_trajectory g q0 p0 tl false kw) as [[st rows]|]; [|reflexivity].
  cbn [mapR fst snd]. rewrite !map_map. do 2 apply f_equal. apply map_ext. intros r. cbn [fst snd]. rewrite to_cart_mirror. reflexivity.
Qed.
Lemma geodesic_rotate m prms x1 x2 x3 mom tl cart kw s : every_metric m (fun g => well_formed g /\ independent_of g 3) ->
  mk_geodesic m prms (x1, x2, x3 + s) mom tl cart kw = mapR (map_geo (fun c => rotate_point c s) (fun p => p) cart) (mk_geodesic m prms (x1, x2, x3) mom tl cart kw).
Proof.
  intros H. unfold mk_geodesic. destruct (resolve_metric m) as [call|] eqn:Em; cbn [bindR mapR]; [|reflexivity]. destruct mom as [[u1 u2] u3].
  destruct (call prms) as [gP|] eqn:EP; cbn [bindR mapR]; [|reflexivity]. destruct (H _ _ _ Em EP) as [WP IP].
  change (mkQ4 0 x1 x2 (x3 + s)) with (rotate_point false s (mkQ4 0 x1 x2 x3)).
  replace (P4 gP (rotate_point false s (mkQ4 0 x1 x2 x3)) u1 u2 u3 tl) with (P4 gP (mkQ4 0 x1 x2 x3) u1 u2 u3 tl).
  2: { unfold P4. assert (E := proj1 (translation gP 3 s WP IP) (mkQ4 0 x1 x2 x3)). cbn [metricfun_of gval] in E. rewrite move_rot in E. rewrite E.
       destruct (metric_at gP (mkQ4 0 x1 x2 x3)); cbn [mapR bindR]; [rewrite flipm_ones|]; reflexivity. }
  destruct (P4 gP (mkQ4 0 x1 x2 x3) u1 u2 u3 tl) as [p0|]; cbn [bindR mapR]; [|reflexivity].
  destruct (call (resolve_params m prms)) as [gI|] eqn:EI; cbn [bindR mapR]; [|reflexivity]. destruct (H _ _ _ Em EI) as [WI II].
  rewrite (trajectory_rotate gI _ _ _ _ _ s WI II). destruct (calculate_trajectory gI (mkQ4 0 x1 x2 x3) p0 tl cart kw) as [[st rows]|]; reflexivity.
Qed.
Lemma P_of_guu_mirror M u1 u2 u3 tl : P_of_guu (flipm mirror_e M) u1 (- u2) u3 tl = mapR mirror_momentum (P_of_guu M u1 u2 u3 tl).
Proof.
  unfold P_of_guu. cbv zeta. unfold flipm, mtab, q4tab, mirror_e, mnth. cbn [q4nth c0 c1 c2 c3].
  replace (1 * 1 * c0 (c0 M)) with (c0 (c0 M)) by ring. replace (1 * 1 * c3 (c0 M)) with (c3 (c0 M)) by ring.
  replace (1 * 1 * c1 (c1 M) * u1 * u1 + -1 * -1 * c2 (c2 M) * - u2 * - u2 + 1 * 1 * c3 (c3 M) * u3 * u3 + b2R tl)
    with (c1 (c1 M) * u1 * u1 + c2 (c2 M) * u2 * u2 + c3 (c3 M) * u3 * u3 + b2R tl) by ring.
  destruct (np_sqrt _); cbn [bindR mapR]; [|reflexivity]. destruct (np_div _ _); reflexivity.
Qed.
Lemma geodesic_mirror m prms x1 x2 x3 u1 u2 u3 tl cart kw : every_metric m mirror_program ->
  mk_geodesic m prms (x1, PI - x2, x3) (u1, - u2, u3) tl cart kw = mapR (map_geo mirror_point mirror_momentum cart) (mk_geodesic m prms (x1, x2, x3) (u1, u2, u3) tl cart kw).
Proof.
  intros H. unfold mk_geodesic. destruct (resolve_metric m) as [call|] eqn:Em; cbn [bindR mapR]; [|reflexivity].
  destruct (call prms) as [gP|] eqn:EP; cbn [bindR mapR]; [|reflexivity]. assert (PP := H _ _ _ Em EP).
  change (mkQ4 0 x1 (PI - x2) x3) with (mirror_point false (mkQ4 0 x1 x2 x3)).
  replace (P4 gP (mirror_point false (mkQ4 0 x1 x2 x3)) u1 (- u2) u3 tl) with (mapR mirror_momentum (P4 gP (mkQ4 0 x1 x2 x3) u1 u2 u3 tl)).
  2: { unfold P4. assert (E := proj1 (mirror_respects gP PP) (mkQ4 0 x1 x2 x3)). cbn [metricfun_of gval] in E. rewrite move_mir in E. rewrite E.
       destruct (metric_at gP (mkQ4 0 x1 x2 x3)); cbn [mapR bindR]; [rewrite P_of_guu_mirror|]; reflexivity. }
  destruct (P4 gP (mkQ4 0 x1 x2 x3) u1 u2 u3 tl) as [p0|]; cbn [bindR mapR]; [|reflexivity].
  destruct (call (resolve_params m prms)) as [gI|] eqn:EI; cbn [bindR mapR]; [|reflexivity].
  rewrite (trajectory_mirror gI _ _ _ _ _ (H _ _ _ Em EI)). destruct (calculate_trajectory gI (mkQ4 0 x1 x2 x3) p0 tl cart kw) as [[st rows]|]; reflexivity.
Qed.
Definition named (m : metric_arg) : Prop := exists s, m = MName s /\ In s ["Schwarzschild"; "Kerr"; "KerrNewman"]%string.
Lemma named_cases m call prms g : named m -> resolve_metric m = Ok call -> call prms = Ok g -> g = schE \/ (exists a, g = kerrE a) \/ (exists a Q, g = kerrnewmanE a Q).
Proof.
  intros [s [-> Hs]] R C. cbn in Hs. destruct Hs as [<- |[<- |[<- |[]]]]; cbn [resolve_metric String.eqb Ascii.eqb Bool.eqb] in R; apply Ok_inj in R; subst call.
  - apply Ok_inj in C. left. congruence.
  - destruct prms as [|a l]; [discriminate|]. apply Ok_inj in C. right; left. exists a. congruence.
  - destruct prms as [|a [|Q l]]; try discriminate. apply Ok_inj in C. right; right. exists a, Q. congruence.
Qed.
Lemma named_symmetries m : named m -> every_metric m (fun g => well_formed g /\ independent_of g 3) /\ every_metric m mirror_program.
Proof.
  intros N. destruct builtin_well_formed as [[W1 _] [W2 W3]]. destruct builtin_independent as [I1 [I2 I3]]. destruct builtin_mirror as [M1 [M2 M3]].
  split; intros call prms g R C; destruct (named_cases m call prms g N R C) as [-> |[[a ->]|[a [Q ->]]]].
  - split; [exact W1|apply I1; right; reflexivity].
  - split; [apply W2|apply I2; right; reflexivity].
  - split; [apply W3|apply I3; right; reflexivity].
  - exact M1.
  - apply M2.
  - apply M3.
Qed.
