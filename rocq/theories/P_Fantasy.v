(* generated from tools/P/P_Fantasy.v.in by tools/genp.py: statements only, proofs are references *)
(** Properties C08-C14, C87-C89: the FANTASY symplectic integrator (einsteinpy.integrators). *)
From Coq Require Import Reals List ZArith Lra Lia Bool.
From Coquelicot Require Import Coquelicot.
From Verif Require Import Base DualModel DualSpec GeoUtilsModel GeoUtilsSpec GeoUtilsProofs FantasyModel
  FantasyProofs FantasyProofs2 FantasyProofs3 FantasyHam FantasySymp GeodesicModel FantasyOrder3 FantasyOrder4 FantasyGlobal3 FantasyShell.
Import ListNotations.
Open Scope R_scope.

(** C08: the coupling flow *)
Theorem C08_mixed_sums : forall s d w,
  vadd (q1 (flow_mixed s d w)) (q2 (flow_mixed s d w)) = vadd (q1 s) (q2 s)
  /\ vadd (p1 (flow_mixed s d w)) (p2 (flow_mixed s d w)) = vadd (p1 s) (p2 s).
Proof. exact FantasyProofs.mixed_sum. Qed.
Print Assumptions C08_mixed_sums.

Theorem C08_mixed_rotates_differences : forall s d w,
  let s' := flow_mixed s d w in
  vsub (q1 s') (q2 s') = vadd (vscal (cos (2 * w * d)) (vsub (q1 s) (q2 s))) (vscal (sin (2 * w * d)) (vsub (p1 s) (p2 s)))
  /\ vsub (p1 s') (p2 s') = vsub (vscal (cos (2 * w * d)) (vsub (p1 s) (p2 s))) (vscal (sin (2 * w * d)) (vsub (q1 s) (q2 s))).
Proof. exact FantasyProofs.mixed_diff. Qed.
Print Assumptions C08_mixed_rotates_differences.

Theorem C08_mixed_norm : forall s d w,
  let s' := flow_mixed s d w in
  norm2 (vsub (q1 s') (q2 s')) + norm2 (vsub (p1 s') (p2 s'))
  = norm2 (vsub (q1 s) (q2 s)) + norm2 (vsub (p1 s) (p2 s)).
Proof. exact FantasyProofs.mixed_norm. Qed.
Print Assumptions C08_mixed_norm.

Theorem C08_mixed_group : forall s d e w,
  flow_mixed (flow_mixed s d w) e w = flow_mixed s (d + e) w.
Proof. exact FantasyProofs.mixed_add. Qed.
Print Assumptions C08_mixed_group.

Theorem C08_mixed_zero : forall s w,
  flow_mixed s 0 w = s.
Proof. exact FantasyProofs.mixed_zero. Qed.
Print Assumptions C08_mixed_zero.

Theorem C08_mixed_inverse : forall s d w,
  flow_mixed (flow_mixed s d w) (- d) w = s.
Proof. exact FantasyProofs.mixed_inv. Qed.
Print Assumptions C08_mixed_inverse.

(** it is the flow of omega/2 (|q1-q2|^2 + |p1-p2|^2) *)
Theorem C08_mixed_hamilton : forall s w (d : R) (i : nat),
  (i < 4)%nat ->
  let u := fun t => flow_mixed s t w in
  is_derive (fun t => q4nth (q1 (u t)) i) d (w * (q4nth (p1 (u d)) i - q4nth (p2 (u d)) i))
  /\ is_derive (fun t => q4nth (p1 (u t)) i) d (- (w * (q4nth (q1 (u d)) i - q4nth (q2 (u d)) i)))
  /\ is_derive (fun t => q4nth (q2 (u t)) i) d (- (w * (q4nth (p1 (u d)) i - q4nth (p2 (u d)) i)))
  /\ is_derive (fun t => q4nth (p2 (u t)) i) d (w * (q4nth (q1 (u d)) i - q4nth (q2 (u d)) i)).
Proof. exact FantasyProofs.mixed_hamilton. Qed.
Print Assumptions C08_mixed_hamilton.


(** C09: the half flows solve Hamilton's equations of H(q1,p2), H(q2,p1) exactly *)
Theorem C09_flow_A : forall g s,
  well_formed g -> symmetric_program g -> metric_defined g (q4nth (q1 s)) ->
  exists u : R -> state,
  (forall d, apply_A (metricfun_of g) d s = Ok (u d))
  /\ u 0 = s
  /\ (forall d, q1 (u d) = q1 s /\ p2 (u d) = p2 s)
  /\ hamilton_curve g (q1 s) (p2 s) (fun d => q2 (u d)) (fun d => p1 (u d)).
Proof. exact FantasyProofs3.half_flow_A. Qed.
Print Assumptions C09_flow_A.

Theorem C09_flow_B : forall g s,
  well_formed g -> symmetric_program g -> metric_defined g (q4nth (q2 s)) ->
  exists u : R -> state,
  (forall d, apply_B (metricfun_of g) d s = Ok (u d))
  /\ u 0 = s
  /\ (forall d, q2 (u d) = q2 s /\ p1 (u d) = p1 s)
  /\ hamilton_curve g (q2 s) (p1 s) (fun d => q1 (u d)) (fun d => p2 (u d)).
Proof. exact FantasyProofs3.half_flow_B. Qed.
Print Assumptions C09_flow_B.

Theorem C09_energy_A : forall g d s s',
  apply_A (metricfun_of g) d s = Ok s' ->
  Ham g (q1 s') (p2 s') = Ham g (q1 s) (p2 s).
Proof. exact FantasyProofs3.half_energy_A. Qed.
Print Assumptions C09_energy_A.

Theorem C09_energy_B : forall g d s s',
  apply_B (metricfun_of g) d s = Ok s' ->
  Ham g (q2 s') (p1 s') = Ham g (q2 s) (p1 s).
Proof. exact FantasyProofs3.half_energy_B. Qed.
Print Assumptions C09_energy_B.

Theorem C09_builtin_metrics_qualify : 
  (well_formed schE /\ symmetric_program schE)
  /\ (forall a, well_formed (kerrE a) /\ symmetric_program (kerrE a))
  /\ (forall a Q, well_formed (kerrnewmanE a Q) /\ symmetric_program (kerrnewmanE a Q)).
Proof. exact FantasyProofs3.builtin_well_formed. Qed.
Print Assumptions C09_builtin_metrics_qualify.


(** C10: for every metric and every supported order, stepping by -delta undoes stepping by delta *)
Theorem C10_reversible : forall order G w f,
  integrator_of order G w = Ok f -> reversible f.
Proof. exact FantasyProofs.integrator_rev. Qed.
Print Assumptions C10_reversible.


(** C11: p_k of both copies summed is conserved by any number of steps when the metric does not depend on x_k *)
Theorem C11_cyclic_momentum_all_steps : forall strict k n I,
  (k < 4)%nat -> cyclic (i_metric I) k ->
  total_momentum k (i_res (steps strict n I)) = total_momentum k (i_res I).
Proof. exact FantasyProofs2.steps_momentum. Qed.
Print Assumptions C11_cyclic_momentum_all_steps.

Theorem C11_cyclic_momentum_one_step : forall order G w f k d s s',
  (k < 4)%nat -> cyclic G k -> integrator_of order G w = Ok f ->
  f d s = Ok s' -> total_momentum k s' = total_momentum k s.
Proof. exact FantasyProofs2.integrator_momentum. Qed.
Print Assumptions C11_cyclic_momentum_one_step.

Theorem C11_independent_is_cyclic : forall g k,
  (k < 4)%nat -> independent_of g k -> cyclic (metricfun_of g) k.
Proof. exact FantasyProofs2.independent_cyclic. Qed.
Print Assumptions C11_independent_is_cyclic.

Theorem C11_builtin_stationary_axisymmetric : 
  (forall k, k = 0%nat \/ k = 3%nat -> independent_of schE k)
  /\ (forall a k, k = 0%nat \/ k = 3%nat -> independent_of (kerrE a) k)
  /\ (forall a Q k, k = 0%nat \/ k = 3%nat -> independent_of (kerrnewmanE a Q) k).
Proof. exact FantasyProofs2.builtin_independent. Qed.
Print Assumptions C11_builtin_stationary_axisymmetric.


(** C12: each order is a sequence of order-2 substeps with the weights [weights order] *)
Theorem C12_order_is_composition : forall order G w f,
  integrator_of order G w = Ok f ->
  forall d s, f d s = run_substeps G w (weights order) d s.
Proof. exact FantasyProofs.order_is_weights. Qed.
Print Assumptions C12_order_is_composition.

Theorem C12_weights_sum_to_one : forall order,
  In order [2;4;6;8]%nat -> powsum 1 (weights order) = 1.
Proof. exact FantasyProofs.weights_sum. Qed.
Print Assumptions C12_weights_sum_to_one.

Theorem C12_jump_sum : forall order,
  (4 <= order)%nat -> 2 * snd (Z01 order) ^ 1 + fst (Z01 order) ^ 1 = 1.
Proof. exact FantasyProofs.jump_sum. Qed.
Print Assumptions C12_jump_sum.

Theorem C12_jump_cancels_leading_error : forall order,
  (4 <= order)%nat -> Nat.Even order ->
  2 * snd (Z01 order) ^ (order - 1) + fst (Z01 order) ^ (order - 1) = 0.
Proof. exact FantasyProofs.jump_cancel. Qed.
Print Assumptions C12_jump_cancels_leading_error.

Theorem C12_order4_cubic : 
  powsum 3 (weights 4) = 0.
Proof. exact FantasyProofs.weights_4_cubic. Qed.
Print Assumptions C12_order4_cubic.


(** C13 is false: the third-order error of orders 6 and 8 does not cancel *)
Theorem C13_orders_6_8_cubic_refuted : forall order,
  order = 6%nat \/ order = 8%nat -> powsum 3 (weights order) <> 0.
Proof. exact FantasyProofs.weights_68_cubic. Qed.
Print Assumptions C13_orders_6_8_cubic_refuted.

(** on the metric diag(-1, x, 1, 1) orders 6 and 8 are not even third-order accurate *)
Theorem C13_local_order_3_refuted : forall order f,
  order = 6%nat \/ order = 8%nat -> integrator_of order (metricfun_of lin_metric) 0 = Ok f -> ~ local_order lin_metric f 3.
Proof. exact FantasyOrder4.orders_68_not_third. Qed.
Print Assumptions C13_local_order_3_refuted.

(** with _Z(4), _Z(6), _Z(8) at the respective levels it would *)
Theorem C13_correct_nesting_would_cancel : 
  powsum 3 (triple_weights 6 (triple_weights 4 [1])) = 0
  /\ powsum 5 (triple_weights 6 (triple_weights 4 [1])) = 0
  /\ powsum 3 (triple_weights 8 (triple_weights 6 (triple_weights 4 [1]))) = 0
  /\ powsum 5 (triple_weights 8 (triple_weights 6 (triple_weights 4 [1]))) = 0
  /\ powsum 7 (triple_weights 8 (triple_weights 6 (triple_weights 4 [1]))) = 0.
Proof. exact FantasyProofs.correct_nesting_cubic. Qed.
Print Assumptions C13_correct_nesting_would_cancel.


(** C14 *)
Theorem C14_history : forall n,
  forall I,
  exists l, i_results (steps false n I) = i_results I ++ l
  /\ i_step_num (steps false n I) = (i_step_num I + length l)%nat
  /\ chain (next I) (i_res I) l
  /\ i_res (steps false n I) = last l (i_res I)
  /\ (length l <= n)%nat
  /\ ((length l < n)%nat -> exists e, next I (last l (i_res I)) = Err e).
Proof. exact FantasyProofs2.steps_history. Qed.
Print Assumptions C14_history.

Theorem C14_suppress_only_warnings : forall n,
  forall I b,
  steps false n (with_suppress I b) = with_suppress (steps false n I) b.
Proof. exact FantasyProofs2.suppress_only_warnings. Qed.
Print Assumptions C14_suppress_only_warnings.

Theorem C14_suppressed_never_warns : forall I,
  i_suppress I = true -> forall strict, snd (step strict I) <> Done true /\ snd (step strict I) <> Raised RuntimeWarningExn \/ exists e, next I (i_res I) = Err e.
Proof. exact FantasyProofs2.suppressed_never_warns. Qed.
Print Assumptions C14_suppressed_never_warns.

Theorem C14_warning_iff : forall I arr,
  next I (i_res I) = Ok arr -> i_suppress I = false ->
  forall g, gval (i_metric I) (q1 arr) = Ok g ->
  (snd (step false I) = Done true <->
  Rabs (quad g (p1 arr) - (- b2R (i_time_like I))) > i_atol I + i_rtol I * Rabs (- b2R (i_time_like I))).
Proof. exact FantasyProofs2.warning_iff. Qed.
Print Assumptions C14_warning_iff.

(** when warnings are errors the history loses the state it moved to *)
Theorem C14_history_warnings_as_errors_refuted : 
  exists I0 I1, mk_integrator flat_fun (mkQ4 0 0 0 0) (mkQ4 (-1) 0 0 0) false 1 0 (1/100) 2 0 false = Ok I0
  /\ step true I0 = (I1, Raised RuntimeWarningExn)
  /\ i_step_num I1 <> length (i_results I1).
Proof. exact FantasyProofs2.history_strict_refuted. Qed.
Print Assumptions C14_history_warnings_as_errors_refuted.


(** non-vacuity: the flat metric steps, warns or not *)
Example C14_nonvacuous : exists I0, mk_integrator flat_fun (mkQ4 0 0 0 0) (mkQ4 (-1) 0 0 0) true 1 0 (1/100) 2 0 false = Ok I0
  /\ next I0 (i_res I0) = Ok (mkQ4 (mkQ4 1 0 0 0) (mkQ4 (-1) 0 0 0) (mkQ4 1 0 0 0) (mkQ4 (-1) 0 0 0)).
Proof.
  eexists. split; [reflexivity|]. unfold next. cbn [i_order i_metric i_omega i_delta i_res integrator_of bindR]. unfold ord_2.
  rewrite flat_rest_A. cbn [bindR]. rewrite flat_rest_B. cbn [bindR]. rewrite flat_rest_C, flat_rest_B. cbn [bindR].
  rewrite flat_rest_A. f_equal. repeat (apply Q4_eq; cbn); field.
Qed.

(** C87: order of accuracy. [local_order g f n]: a step of size delta started on any geodesic of g stays within M |delta|^(n+1) of it. *)
Theorem C87_every_order_is_at_least_second : forall order g w f,
  integrator_of order (metricfun_of g) w = Ok f -> well_formed g -> symmetric_program g -> local_order g f 2.
Proof. exact FantasyOrder3.order_2_accuracy. Qed.
Print Assumptions C87_every_order_is_at_least_second.

Theorem C87_order_four_is_fourth : forall g w f,
  integrator_of 4 (metricfun_of g) w = Ok f -> well_formed g -> symmetric_program g -> local_order g f 4.
Proof. exact FantasyOrder3.order_4_accuracy. Qed.
Print Assumptions C87_order_four_is_fourth.

(** also off the diagonal: the step follows Hamilton's equations of the extended Hamiltonian H(q1,p2) + H(q2,p1) + w/2 (|q1-q2|^2 + |p1-p2|^2) *)
Theorem C87_doubled_system : forall order g w f n (s : R -> state),
  integrator_of order (metricfun_of g) w = Ok f -> n = 2%nat \/ (order = 4 /\ n = 4)%nat -> well_formed g -> symmetric_program g ->
  metric_defined g (q4nth (q1 (s 0))) -> metric_defined g (q4nth (q2 (s 0))) -> extended_solution g w s ->
  exists r M, 0 < r /\ forall delta, Rabs delta < r -> exists s', f delta (s 0) = Ok s' /\
  forall i j, (i < 4)%nat -> (j < 4)%nat -> Rabs (mnth s' i j - mnth (s delta) i j) <= M * Rabs delta ^ S n.
Proof. exact FantasyGlobal3.doubled_accuracy. Qed.
Print Assumptions C87_doubled_system.


(** non-vacuity: x = (1 + t/2)^2, p_x = 1 / (1 + t/2) is a geodesic of the inverse metric diag(-1, x, 1, 1), which meets the hypotheses *)
Example C87_nonvacuous : well_formed lin_metric /\ symmetric_program lin_metric /\ metric_defined lin_metric (q4nth (lin_q 0)) /\ geodesic lin_metric lin_q lin_p
  /\ exists f, integrator_of 4 (metricfun_of lin_metric) 1 = Ok f.
Proof. split; [exact lin_wf|]. split; [exact lin_sym|]. split; [apply lin_defined|]. split; [exact lin_geodesic|]. eexists. reflexivity. Qed.

(** C88: a step of any supported order preserves dq1 /\\ dp1 + dq2 /\\ dp2 *)
Theorem C88_symplectic : forall (order : nat) (g : metricP) (w d : R) (f : R -> state -> Res state),
  integrator_of order (metricfun_of g) w = Ok f -> well_formed g -> symmetric_program g ->
  forall (a b : R -> state) (t0 : R) (u v : state), a t0 = b t0 -> regular_step g w order d (a t0) ->
  tangent a t0 u -> tangent b t0 v ->
  exists (a' b' : R -> state) (u' v' : state),
  locally t0 (fun t => f d (a t) = Ok (a' t)) /\ locally t0 (fun t => f d (b t) = Ok (b' t)) /\
  tangent a' t0 u' /\ tangent b' t0 v' /\ symp u' v' = symp u v.
Proof. exact FantasySymp.integrator_symplectic. Qed.
Print Assumptions C88_symplectic.

(** a metric program defined at every point meets the regularity hypothesis for every step *)
Theorem C88_regular_everywhere : forall (g : metricP),
  (forall q, metric_defined g q) -> forall w order d s, regular_step g w order d s.
Proof. exact FantasySymp.regular_everywhere. Qed.
Print Assumptions C88_regular_everywhere.


(** non-vacuity: straight curves through any point of the metric diag(-1, x, 1, 1), any step size *)
Example C88_nonvacuous : forall (s u : state) (d w : R) (order : nat),
  well_formed lin_metric /\ symmetric_program lin_metric /\ regular_step lin_metric w order d s /\
  tangent (fun t => mtab (fun i j => mnth s i j + t * mnth u i j)) 0 u /\ mtab (fun i j => mnth s i j + 0 * mnth u i j) = s.
Proof.
  intros s u d w order. split; [exact lin_wf|]. split; [exact lin_sym|]. split; [apply regular_everywhere, lin_defined|]. split.
  - intros i j Hi Hj. revert j Hj; apply q4_cases; revert i Hi; apply q4_cases; cbn [mnth q4nth mtab q4tab c0 c1 c2 c3]; (auto_derive; [exact I|cbn [mnth q4nth]; ring]).
  - apply flat_inj, lt16; cbv [flat mtab q4tab mnth Nat.div Nat.divmod Nat.modulo fst snd Nat.sub q4nth c0 c1 c2 c3]; ring.
Qed.

(** C89: global convergence on a fixed interval as the number of steps grows *)
Theorem C89_global_convergence : forall order g w f n (q p : R -> V4) T,
  integrator_of order (metricfun_of g) w = Ok f -> n = 2%nat \/ (order = 4 /\ n = 4)%nat ->
  well_formed g -> symmetric_program g -> 0 < T -> geodesic_on g q p T ->
  exists C N0, (0 < N0)%nat /\ forall N tl rtol atol suppress, (N0 <= N)%nat ->
  exists rows, calculate_trajectory g (q 0) (p 0) tl false (mkkw N (T / INR N) rtol atol order w suppress) = Ok (seq 0 N, rows) /\ length rows = N /\
  forall k row, nth_error rows k = Some row -> forall i, (i < 4)%nat ->
  Rabs (q4nth (fst row) i - q4nth (q (INR (S k) * (T / INR N))) i) <= C * (T / INR N) ^ n /\
  Rabs (q4nth (snd row) i - q4nth (p (INR (S k) * (T / INR N))) i) <= C * (T / INR N) ^ n.
Proof. exact FantasyGlobal3.trajectory_converges. Qed.
Print Assumptions C89_global_convergence.


(** non-vacuity: the geodesic above exists on every interval [0, T], and orders 2 and 4 qualify *)
Example C89_nonvacuous : forall T, 0 < T -> well_formed lin_metric /\ symmetric_program lin_metric /\ geodesic_on lin_metric lin_q lin_p T
  /\ exists f, integrator_of 4 (metricfun_of lin_metric) 1 = Ok f.
Proof. intros T HT. split; [exact lin_wf|]. split; [exact lin_sym|]. split; [apply lin_geodesic_on; exact HT|]. eexists. reflexivity. Qed.

(** C93: the mass shell 1/2 g^ij p_i p_j *)
(** on an exact geodesic it is constant *)
Theorem C93_exactly_constant_on_geodesics : forall g q p T,
  well_formed g -> symmetric_program g -> geodesic_on g q p T -> forall t, 0 <= t <= T -> Ham g (q t) (p t) = Ham g (q 0) (p 0).
Proof. exact FantasyShell.shell_constant. Qed.
Print Assumptions C93_exactly_constant_on_geodesics.

(** C93: on every returned row it is within C (T/N)^n of its initial value *)
Theorem C93_mass_shell_drift : forall order g w f n (q p : R -> V4) T,
  integrator_of order (metricfun_of g) w = Ok f -> n = 2%nat \/ (order = 4 /\ n = 4)%nat ->
  well_formed g -> symmetric_program g -> 0 < T -> geodesic_on g q p T ->
  exists C N0, (0 < N0)%nat /\ forall N tl rtol atol suppress, (N0 <= N)%nat ->
  exists rows, calculate_trajectory g (q 0) (p 0) tl false (mkkw N (T / INR N) rtol atol order w suppress) = Ok (seq 0 N, rows) /\ length rows = N /\
  forall row, In row rows -> Rabs (Ham g (fst row) (snd row) - Ham g (q 0) (p 0)) <= C * (T / INR N) ^ n.
Proof. exact FantasyShell.mass_shell_drift. Qed.
Print Assumptions C93_mass_shell_drift.

Example C93_nonvacuous : forall T, 0 < T -> well_formed lin_metric /\ symmetric_program lin_metric /\ geodesic_on lin_metric lin_q lin_p T
  /\ (exists f, integrator_of 4 (metricfun_of lin_metric) 1 = Ok f) /\ Ham lin_metric (lin_q 0) (lin_p 0) <> 0.
Proof.
  intros T HT. destruct (C89_nonvacuous T HT) as (A & B & C & D). split; [exact A|]. split; [exact B|]. split; [exact C|]. split; [exact D|].
  rewrite (Ham_shell lin_metric _ _ A). cbv [shellE hamE esum meaning lin_metric mnth q4nth ren pt8 lin_q lin_p Nat.ltb Nat.leb Nat.add Nat.sub c0 c1 c2 c3].
  apply Rgt_not_eq. lra.
Qed.
