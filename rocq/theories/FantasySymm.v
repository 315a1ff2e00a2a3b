(** Symmetries of the computed trajectories: translations along cyclic coordinates, reflections, momentum reversal. *)
From Coq Require Import Reals List ZArith Lra Lia Bool String.
From Verif Require Import Base DualModel GeoUtilsModel FantasyModel FantasyProofs2 GeodesicModel.
Import ListNotations.
Open Scope R_scope.

(** ** Affine sign changes q -> e q + b of the coordinates, p -> e p of the momenta *)
Definition flipv (e v : V4) : V4 := q4map2 Rmult e v.
Definition move (e b q : V4) : V4 := vadd (flipv e q) b.
Definition flipm (e : V4) (m : M4) : M4 := mtab (fun i j => q4nth e i * q4nth e j * mnth m i j).
Definition signs (e : V4) : Prop := forall i, (i < 4)%nat -> q4nth e i * q4nth e i = 1.
(** the metric callable (values and derivatives) is carried into itself *)
Definition respects (G : metricfun) (e b : V4) : Prop :=
  (forall q, gval G (move e b q) = mapR (flipm e) (gval G q)) /\
  (forall q k, (k < 4)%nat -> gjac G (move e b q) k = mapR (fun J => q4map (vscal (q4nth e k)) (flipm e J)) (gjac G q k)).
Definition moveS (e b : V4) (s : state) : state := mkQ4 (move e b (q1 s)) (flipv e (p1 s)) (move e b (q2 s)) (flipv e (p2 s)).

Ltac vring := apply Q4_eq; unfold move; unfold vadd, vsub, vscal, flipv, mv, flipm, mtab, q4tab, q4map, q4map2, dot, mnth; cbn [q4nth c0 c1 c2 c3].
Lemma signs4 e : signs e -> c0 e * c0 e = 1 /\ c1 e * c1 e = 1 /\ c2 e * c2 e = 1 /\ c3 e * c3 e = 1.
Proof. intros H. repeat split; [apply (H 0%nat)|apply (H 1%nat)|apply (H 2%nat)|apply (H 3%nat)]; lia. Qed.
Lemma mv_flip e m p : signs e -> mv (flipm e m) (flipv e p) = flipv e (mv m p).
Proof.
  intros H. apply signs4 in H. destruct H as (A0 & A1 & A2 & A3). vring; ring [A0 A1 A2 A3].
Qed.
Lemma quad_flip e k J p : signs e -> dot (mv (q4map (vscal k) (flipm e J)) (flipv e p)) (flipv e p) = k * dot (mv J p) p.
Proof.
  intros H. apply signs4 in H. destruct H as (A0 & A1 & A2 & A3).
  unfold vscal, flipv, mv, flipm, mtab, q4tab, q4map, q4map2, dot, mnth; cbn [q4nth c0 c1 c2 c3]. ring [A0 A1 A2 A3].
Qed.
Lemma dot_flip e m p : signs e -> dot (mv (flipm e m) (flipv e p)) (flipv e p) = dot (mv m p) p.
Proof.
  intros H. apply signs4 in H. destruct H as (A0 & A1 & A2 & A3).
  unfold vscal, flipv, mv, flipm, mtab, q4tab, q4map, q4map2, dot, mnth; cbn [q4nth c0 c1 c2 c3]. ring [A0 A1 A2 A3].
Qed.

Section Symm.
Variables (G : metricfun) (e b : V4).
Hypotheses (He : signs e) (HG : respects G e b).
Lemma ham_grad_move q p : ham_grad G (move e b q) (flipv e p) = mapR (flipv e) (ham_grad G q p).
Proof.
  unfold ham_grad, part_ham_flow. cbn [q4tab]. unfold q4tab.
  rewrite !(proj2 HG) by lia.
  unfold q4seq; cbn [c0 c1 c2 c3].
  do 4 (match goal with |- context [gjac G q ?k] => destruct (gjac G q k); cbn [mapR bindR]; [|reflexivity] end).
  rewrite !quad_flip by exact He. apply f_equal. apply Q4_eq; unfold flipv, q4map2; cbn [c0 c1 c2 c3 q4nth]; ring.
Qed.
Lemma flow_A_move s d : flow_A G (moveS e b s) d = mapR (fun r => (move e b (fst r), flipv e (snd r))) (flow_A G s d).
Proof.
  unfold flow_A, moveS, q1, p1, q2, p2; cbn [c0 c1 c2 c3]. rewrite ham_grad_move. destruct (ham_grad G (c0 s) (c3 s)); cbn [mapR bindR]; [|reflexivity].
  rewrite (proj1 HG). destruct (gval G (c0 s)); cbn [mapR bindR fst snd]; [|reflexivity]. rewrite mv_flip by exact He.
  apply f_equal. apply f_equal2; vring; ring.
Qed.
Lemma flow_B_move s d : flow_B G (moveS e b s) d = mapR (fun r => (move e b (fst r), flipv e (snd r))) (flow_B G s d).
Proof.
  unfold flow_B, moveS, q1, p1, q2, p2; cbn [c0 c1 c2 c3]. rewrite ham_grad_move. destruct (ham_grad G (c2 s) (c1 s)); cbn [mapR bindR]; [|reflexivity].
  rewrite (proj1 HG). destruct (gval G (c2 s)); cbn [mapR bindR fst snd]; [|reflexivity]. rewrite mv_flip by exact He.
  apply f_equal. apply f_equal2; vring; ring.
Qed.
Lemma apply_A_move d s : apply_A G d (moveS e b s) = mapR (moveS e b) (apply_A G d s).
Proof. unfold apply_A. rewrite flow_A_move. destruct (flow_A G s d); reflexivity. Qed.
Lemma apply_B_move d s : apply_B G d (moveS e b s) = mapR (moveS e b) (apply_B G d s).
Proof. unfold apply_B. rewrite flow_B_move. destruct (flow_B G s d); reflexivity. Qed.
Lemma mixed_move s d w : flow_mixed (moveS e b s) d w = moveS e b (flow_mixed s d w).
Proof.
  unfold flow_mixed. cbv zeta. generalize (cos (2 * w * d)) (sin (2 * w * d)). intros co si.
  unfold moveS, q1, p1, q2, p2. cbn [c0 c1 c2 c3]. apply Q4_eq; cbn [c0 c1 c2 c3]; vring; field.
Qed.
Definition equivariant (f : R -> state -> Res state) : Prop := forall d s, f d (moveS e b s) = mapR (moveS e b) (f d s).
Lemma ord_2_move w : equivariant (ord_2 G w).
Proof.
  intros d s. unfold ord_2. rewrite apply_A_move. destruct (apply_A G (/ 2 * d) s) as [s1|]; cbn [mapR bindR]; [|reflexivity].
  rewrite apply_B_move. destruct (apply_B G (/ 2 * d) s1) as [s2|]; cbn [mapR bindR]; [|reflexivity].
  rewrite mixed_move, apply_B_move. destruct (apply_B G (/ 2 * d) (flow_mixed s2 d w)) as [s3|]; cbn [mapR bindR]; [|reflexivity].
  apply apply_A_move.
Qed.
Lemma triple_move o f : equivariant f -> equivariant (triple o f).
Proof.
  intros H d s. unfold triple. cbv zeta. rewrite H. destruct (f (d * snd (Z01 o)) s) as [s1|]; cbn [mapR bindR]; [|reflexivity].
  rewrite H. destruct (f (d * fst (Z01 o)) s1) as [s2|]; cbn [mapR bindR]; [|reflexivity]. apply H.
Qed.
Lemma integrator_move o w f : integrator_of o G w = Ok f -> equivariant f.
Proof.
  intros H. do 9 (destruct o as [|o]; [first [discriminate | apply Ok_inj in H; subst f;
    first [apply ord_2_move | repeat apply triple_move; apply ord_2_move]] |]). discriminate.
Qed.
Definition moveI (I : integ) : integ :=
  mkinteg (i_metric I) (i_delta I) (i_omega I) (i_order I) (i_rtol I) (i_atol I) (i_time_like I) (i_suppress I) (i_step_num I)
    (moveS e b (i_res I)) (map (moveS e b) (i_results I)).
Lemma unstable_move I s : i_metric I = G -> unstable (moveI I) (moveS e b s) = unstable I s.
Proof.
  intros E. unfold unstable, moveI, moveS, q1, p1; cbn [i_metric i_time_like i_rtol i_atol c0 c1]. rewrite E, (proj1 HG).
  destruct (gval G (c0 s)); cbn [mapR]; [|reflexivity]. rewrite dot_flip by exact He. reflexivity.
Qed.
Lemma step_move strict I : i_metric I = G -> step strict (moveI I) = (moveI (fst (step strict I)), snd (step strict I)).
Proof.
  intros E. unfold step. change (i_order (moveI I)) with (i_order I). change (i_metric (moveI I)) with (i_metric I). change (i_omega (moveI I)) with (i_omega I).
  rewrite E. destruct (integrator_of (i_order I) G (i_omega I)) as [f|x] eqn:F; [|reflexivity].
  change (i_delta (moveI I)) with (i_delta I). change (i_res (moveI I)) with (moveS e b (i_res I)).
  rewrite (integrator_move _ _ _ F). destruct (f (i_delta I) (i_res I)) as [arr|x]; cbn [mapR]; [|reflexivity].
  rewrite unstable_move by exact E. change (i_suppress (moveI I)) with (i_suppress I).
  destruct (negb (i_suppress I) && unstable I arr && strict)%bool eqn:B; unfold moveI; cbn [fst snd i_metric i_delta i_omega i_order i_rtol i_atol i_time_like i_suppress i_step_num i_res i_results];
  rewrite ?map_app; cbn [map]; try rewrite E; reflexivity.
Qed.
Lemma step_metric strict I : i_metric (fst (step strict I)) = i_metric I.
Proof.
  unfold step. destruct (integrator_of _ _ _) as [f|]; [|reflexivity]. destruct (f _ _); [|reflexivity]. destruct (_ && _)%bool; reflexivity.
Qed.
Lemma run_steps_move n : forall I, i_metric I = G -> run_steps n (moveI I) = mapR moveI (run_steps n I).
Proof.
  induction n as [|n IH]; intros I E; [reflexivity|]. cbn [run_steps]. rewrite step_move by exact E.
  assert (M := step_metric false I). destruct (step false I) as [I2 [w|x]]; cbn [fst snd] in *; [|reflexivity]. apply IH. congruence.
Qed.
End Symm.

Definition move_row (e b : V4) (r : row) : row := (move e b (fst r), flipv e (snd r)).
Definition move_rows e b (t : list nat * list row) := (fst t, map (move_row e b) (snd t)).
Lemma trajectory_move g e b q0 p0 tl kw : signs e -> respects (metricfun_of g) e b ->
  calculate_trajectory g (move e b q0) (flipv e p0) tl false kw = mapR (move_rows e b) (calculate_trajectory g q0 p0 tl false kw).
Proof.
  intros He HG. unfold calculate_trajectory, mk_integrator. destruct (integrator_of _ _ _); cbn [bindR mapR]; [|reflexivity].
  change (mkinteg (metricfun_of g) (k_delta kw) (k_omega kw) (k_order kw) (k_rtol kw) (k_atol kw) tl (k_suppress kw) 0
    (mkQ4 (move e b q0) (flipv e p0) (move e b q0) (flipv e p0)) [])
   with (moveI e b (mkinteg (metricfun_of g) (k_delta kw) (k_omega kw) (k_order kw) (k_rtol kw) (k_atol kw) tl (k_suppress kw) 0 (mkQ4 q0 p0 q0 p0) [])).
  rewrite (run_steps_move _ e b He HG) by reflexivity. destruct (run_steps _ _) as [I|x]; cbn [bindR mapR]; [|reflexivity].
  change (i_results (moveI e b I)) with (map (moveS e b) (i_results I)).
  destruct (i_results I) as [|s l]; [reflexivity|]. cbn [map]. cbn [mapR]. unfold move_rows; cbn [fst snd map]. rewrite !map_map. reflexivity.
Qed.
