(** Properties C08-C14, C87-C89: the FANTASY symplectic integrator (einsteinpy.integrators). *)
From Coq Require Import Reals List ZArith Lra Lia Bool.
From Coquelicot Require Import Coquelicot.
From Verif Require Import Base DualModel DualSpec GeoUtilsModel GeoUtilsSpec GeoUtilsProofs FantasyModel
  FantasyProofs FantasyProofs2 FantasyProofs3 FantasyHam FantasySymp GeodesicModel FantasyOrder3 FantasyOrder4 FantasyGlobal3 FantasyShell.
Import ListNotations.
Open Scope R_scope.

@thm C08_mixed_sums FantasyProofs.mixed_sum -- C08: the coupling flow
@thm C08_mixed_rotates_differences FantasyProofs.mixed_diff
@thm C08_mixed_norm FantasyProofs.mixed_norm
@thm C08_mixed_group FantasyProofs.mixed_add
@thm C08_mixed_zero FantasyProofs.mixed_zero
@thm C08_mixed_inverse FantasyProofs.mixed_inv
@thm C08_mixed_hamilton FantasyProofs.mixed_hamilton -- it is the flow of omega/2 (|q1-q2|^2 + |p1-p2|^2)

@thm C09_flow_A FantasyProofs3.half_flow_A -- C09: the half flows solve Hamilton's equations of H(q1,p2), H(q2,p1) exactly
@thm C09_flow_B FantasyProofs3.half_flow_B
@thm C09_energy_A FantasyProofs3.half_energy_A
@thm C09_energy_B FantasyProofs3.half_energy_B
@thm C09_builtin_metrics_qualify FantasyProofs3.builtin_well_formed

@thm C10_reversible FantasyProofs.integrator_rev -- C10: for every metric and every supported order, stepping by -delta undoes stepping by delta

@thm C11_cyclic_momentum_all_steps FantasyProofs2.steps_momentum -- C11: p_k of both copies summed is conserved by any number of steps when the metric does not depend on x_k
@thm C11_cyclic_momentum_one_step FantasyProofs2.integrator_momentum
@thm C11_independent_is_cyclic FantasyProofs2.independent_cyclic
@thm C11_builtin_stationary_axisymmetric FantasyProofs2.builtin_independent

@thm C12_order_is_composition FantasyProofs.order_is_weights -- C12: each order is a sequence of order-2 substeps with the weights [weights order]
@thm C12_weights_sum_to_one FantasyProofs.weights_sum
@thm C12_jump_sum FantasyProofs.jump_sum
@thm C12_jump_cancels_leading_error FantasyProofs.jump_cancel
@thm C12_order4_cubic FantasyProofs.weights_4_cubic

@thm C13_orders_6_8_cubic_refuted FantasyProofs.weights_68_cubic -- C13 is false: the third-order error of orders 6 and 8 does not cancel
@thm C13_local_order_3_refuted FantasyOrder4.orders_68_not_third -- on the metric diag(-1, x, 1, 1) orders 6 and 8 are not even third-order accurate
@thm C13_correct_nesting_would_cancel FantasyProofs.correct_nesting_cubic -- with _Z(4), _Z(6), _Z(8) at the respective levels it would

@thm C14_history FantasyProofs2.steps_history -- C14
@thm C14_suppress_only_warnings FantasyProofs2.suppress_only_warnings
@thm C14_suppressed_never_warns FantasyProofs2.suppressed_never_warns
@thm C14_warning_iff FantasyProofs2.warning_iff
@thm C14_history_warnings_as_errors_refuted FantasyProofs2.history_strict_refuted -- when warnings are errors the history loses the state it moved to

(** non-vacuity: the flat metric steps, warns or not *)
Example C14_nonvacuous : exists I0, mk_integrator flat_fun (mkQ4 0 0 0 0) (mkQ4 (-1) 0 0 0) true 1 0 (1/100) 2 0 false = Ok I0
  /\ next I0 (i_res I0) = Ok (mkQ4 (mkQ4 1 0 0 0) (mkQ4 (-1) 0 0 0) (mkQ4 1 0 0 0) (mkQ4 (-1) 0 0 0)).
Proof.
  eexists. split; [reflexivity|]. unfold next. cbn [i_order i_metric i_omega i_delta i_res integrator_of bindR]. unfold ord_2.
  rewrite flat_rest_A. cbn [bindR]. rewrite flat_rest_B. cbn [bindR]. rewrite flat_rest_C, flat_rest_B. cbn [bindR].
  rewrite flat_rest_A. f_equal. repeat (apply Q4_eq; cbn); field.
Qed.

(** C87: order of accuracy. [local_order g f n]: a step of size delta started on any geodesic of g stays within M |delta|^(n+1) of it. *)
@thm C87_every_order_is_at_least_second FantasyOrder3.order_2_accuracy
@thm C87_order_four_is_fourth FantasyOrder3.order_4_accuracy
@thm C87_doubled_system FantasyGlobal3.doubled_accuracy -- also off the diagonal: the step follows Hamilton's equations of the extended Hamiltonian H(q1,p2) + H(q2,p1) + w/2 (|q1-q2|^2 + |p1-p2|^2)

(** non-vacuity: x = (1 + t/2)^2, p_x = 1 / (1 + t/2) is a geodesic of the inverse metric diag(-1, x, 1, 1), which meets the hypotheses *)
Example C87_nonvacuous : well_formed lin_metric /\ symmetric_program lin_metric /\ metric_defined lin_metric (q4nth (lin_q 0)) /\ geodesic lin_metric lin_q lin_p
  /\ exists f, integrator_of 4 (metricfun_of lin_metric) 1 = Ok f.
Proof. split; [exact lin_wf|]. split; [exact lin_sym|]. split; [apply lin_defined|]. split; [exact lin_geodesic|]. eexists. reflexivity. Qed.

@thm C88_symplectic FantasySymp.integrator_symplectic -- C88: a step of any supported order preserves dq1 /\\ dp1 + dq2 /\\ dp2
@thm C88_regular_everywhere FantasySymp.regular_everywhere -- a metric program defined at every point meets the regularity hypothesis for every step

(** non-vacuity: straight curves through any point of the metric diag(-1, x, 1, 1), any step size *)
Example C88_nonvacuous : forall (s u : state) (d w : R) (order : nat),
  well_formed lin_metric /\ symmetric_program lin_metric /\ regular_step lin_metric w order d s /\
  tangent (fun t => mtab (fun i j => mnth s i j + t * mnth u i j)) 0 u /\ mtab (fun i j => mnth s i j + 0 * mnth u i j) = s.
Proof.
  intros s u d w order. split; [exact lin_wf|]. split; [exact lin_sym|]. split; [apply regular_everywhere, lin_defined|]. split.
  - intros i j Hi Hj. revert j Hj; apply q4_cases; revert i Hi; apply q4_cases; cbn [mnth q4nth mtab q4tab c0 c1 c2 c3]; (auto_derive; [exact I|cbn [mnth q4nth]; ring]).
  - apply flat_inj, lt16; cbv [flat mtab q4tab mnth Nat.div Nat.divmod Nat.modulo fst snd Nat.sub q4nth c0 c1 c2 c3]; ring.
Qed.

(** C89: global convergence on a fixed interval as the number of steps grows *)
@thm C89_global_convergence FantasyGlobal3.trajectory_converges

(** non-vacuity: the geodesic above exists on every interval [0, T], and orders 2 and 4 qualify *)
Example C89_nonvacuous : forall T, 0 < T -> well_formed lin_metric /\ symmetric_program lin_metric /\ geodesic_on lin_metric lin_q lin_p T
  /\ exists f, integrator_of 4 (metricfun_of lin_metric) 1 = Ok f.
Proof. intros T HT. split; [exact lin_wf|]. split; [exact lin_sym|]. split; [apply lin_geodesic_on; exact HT|]. eexists. reflexivity. Qed.

(** C93: the mass shell 1/2 g^ij p_i p_j *)
@thm C93_exactly_constant_on_geodesics FantasyShell.shell_constant -- on an exact geodesic it is constant
@thm C93_mass_shell_drift FantasyShell.mass_shell_drift -- C93: on every returned row it is within C (T/N)^n of its initial value
Example C93_nonvacuous : forall T, 0 < T -> well_formed lin_metric /\ symmetric_program lin_metric /\ geodesic_on lin_metric lin_q lin_p T
  /\ (exists f, integrator_of 4 (metricfun_of lin_metric) 1 = Ok f) /\ Ham lin_metric (lin_q 0) (lin_p 0) <> 0.
Proof.
  intros T HT. destruct (C89_nonvacuous T HT) as (A & B & C & D). split; [exact A|]. split; [exact B|]. split; [exact C|]. split; [exact D|].
  rewrite (Ham_shell lin_metric _ _ A). cbv [shellE hamE esum meaning lin_metric mnth q4nth ren pt8 lin_q lin_p Nat.ltb Nat.leb Nat.add Nat.sub c0 c1 c2 c3].
  apply Rgt_not_eq. lra.
Qed.
