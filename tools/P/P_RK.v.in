(** Properties C16-C18, C91, C92: Runge-Kutta integrators (einsteinpy.integrators.runge_kutta). *)
From Coq Require Import Reals List ZArith Lra Lia Bool.
From Coquelicot Require Import Coquelicot.
From Verif Require Import Base DualModel DualSpec DualDiff RKModel RKProofs RKGlobal RKGlobal2 RKProg.
Open Scope R_scope.

@thm C16_history RKProofs.rk4_history -- C16: t0 + n h, and y is the n-fold classical RK4 update
@thm C16_quadrature RKProofs.rk4_quadrature -- exact for cubic right-hand sides in t
@thm C16_antiderivative RKProofs.cubic_antiderivative
@thm C16_linear_systems RKProofs.rk4_linear -- degree-4 Taylor polynomial of exp(hA) for every linear operator A
@thm C16_exponential RKProofs.rk4_exponential
Example C16_linear_nonvacuous : linear (yscal 3) /\ classical_rk4 (fun _ => yscal 3) 1 0 (fun _ => 1) 0%nat = 1 + 3 + 9/2 + 27/6 + 81/24.
Proof.
  split.
  - split; intros; apply FunctionalExtensionality.functional_extensionality; intros j; unfold yscal, yadd; ring.
  - unfold classical_rk4, yscal. field.
Qed.

@thm C17_t_bound_refuted RKProofs.rk4_bound_refuted -- C17 is false
@thm C17_never_stops RKProofs.rk4_never_stops -- what the code does: no call of step() is ever refused, whatever t_bound
@thm C17_overshoots RKProofs.rk4_overshoots

@thm C18_finished_solver RKProofs.rk45_done -- C18: any number of further calls only warn and change nothing
@thm C18_never_runtime_error RKProofs.rk45_never_runtime_error
@thm C18_escapes_only_rhs RKProofs.rk45_escapes_only_rhs
@thm C18_warns_iff RKProofs.rk45_warns_iff
@thm C18_defaults RKProofs.rk45_defaults
Example C18_nonvacuous : sv_status (mksolver 1 (fun _ => 0) 1 1 Finished 1 tt) <> Running.
Proof. discriminate. Qed.

(** C91: local error. [smooth_rhs]: the right-hand side has Lipschitz first partial derivatives near the point; [smooth_solution]: the exact
    solution has five derivatives there, the fifth bounded. *)
@thm C91_local_error RKGlobal.rk4_local_error -- C91: one step from any point of the solution near t0 misses the solution by at most M |h|^5
@thm C91_program_rhs RKProg.program_local_error -- for right-hand sides that are arithmetic programs no smoothness needs to be assumed
@thm C91_programs_are_smooth RKProg.program_smooth
@thm C91_solutions_are_smooth RKProg.program_solution

(** C92: global error on an interval of length T of either sign *)
@thm C92_global_convergence RKGlobal2.rk4_converges -- C92: all of the N steps of size T/N stay within C (T/N)^4 of the solution
@thm C92_program_rhs RKProg.program_converges

(** non-vacuity: y' = 2 t y^2, y = 1 / (1 - t^2), forwards to 1/2 and backwards to -1/2 *)
Example C91_nonvacuous : system 1 riccati /\ defined_for 1 riccati 0 ((fun t _ => / (1 - t * t)) 0) /\ solves_near 1 (program_rhs riccati) (fun t _ => / (1 - t * t)) 0
  /\ smooth_rhs 1 (program_rhs riccati) 0 ((fun t _ => / (1 - t * t)) 0) /\ smooth_solution 1 (program_rhs riccati) (fun t _ => / (1 - t * t)) 0.
Proof.
  assert (S : system 1 riccati) by (intros i Hi; reflexivity). destruct (riccati_solution 0 ltac:(lra)) as [A B].
  split; [exact S|]. split; [exact B|]. split; [exact A|]. split; [apply program_smooth; assumption|exact (program_solution 1 riccati (fun t _ => / (1 - t * t)) 0 S B A)].
Qed.
Example C92_nonvacuous : forall T, T = 1 / 2 \/ T = - (1 / 2) -> forall t, Rmin 0 (0 + T) <= t <= Rmax 0 (0 + T) ->
  defined_for 1 riccati t ((fun t _ => / (1 - t * t)) t) /\ solves_near 1 (program_rhs riccati) (fun t _ => / (1 - t * t)) t.
Proof. intros T HT t Ht. destruct (riccati_solution t) as [A B]; [|split; [exact B|exact A]]. revert Ht. unfold Rmin, Rmax. destruct HT as [-> | ->]; destruct Rle_dec; lra. Qed.
