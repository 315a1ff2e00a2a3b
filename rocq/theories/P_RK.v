(* generated from tools/P/P_RK.v.in by tools/genp.py: statements only, proofs are references *)
(** Properties C16-C18, C91, C92: Runge-Kutta integrators (einsteinpy.integrators.runge_kutta). *)
From Coq Require Import Reals List ZArith Lra Lia Bool.
From Coquelicot Require Import Coquelicot.
From Verif Require Import Base DualModel DualSpec DualDiff RKModel RKProofs RKGlobal RKGlobal2 RKProg.
Open Scope R_scope.

(** C16: t0 + n h, and y is the n-fold classical RK4 update *)
Theorem C16_history : forall f t0 y0 tb h n,
  rk_t (rk4_steps n (rk4_init f t0 y0 tb h)) = t0 + INR n * h
  /\ rk_y (rk4_steps n (rk4_init f t0 y0 tb h)) = rk4_iter f h n t0 y0.
Proof. exact RKProofs.rk4_history. Qed.
Print Assumptions C16_history.

(** exact for cubic right-hand sides in t *)
Theorem C16_quadrature : forall (c0 c1 c2 c3 : Y) t0 y0 h n,
  let f := fun (t : R) (_ : Y) (i : nat) => c0 i + c1 i * t + c2 i * t ^ 2 + c3 i * t ^ 3 in
  let F := fun (t : R) (i : nat) => c0 i * t + c1 i * t ^ 2 / 2 + c2 i * t ^ 3 / 3 + c3 i * t ^ 4 / 4 in
  forall i, rk4_iter f h n t0 y0 i = y0 i + (F (t0 + INR n * h) i - F t0 i).
Proof. exact RKProofs.rk4_quadrature. Qed.
Print Assumptions C16_quadrature.

Theorem C16_antiderivative : forall (c0 c1 c2 c3 t : R),
  is_derive (fun t : R => c0 * t + c1 * t ^ 2 / 2 + c2 * t ^ 3 / 3 + c3 * t ^ 4 / 4) t (c0 + c1 * t + c2 * t ^ 2 + c3 * t ^ 3).
Proof. exact RKProofs.cubic_antiderivative. Qed.
Print Assumptions C16_antiderivative.

(** degree-4 Taylor polynomial of exp(hA) for every linear operator A *)
Theorem C16_linear_systems : forall A h t y,
  linear A -> classical_rk4 (fun _ => A) h t y = taylor4 A h y.
Proof. exact RKProofs.rk4_linear. Qed.
Print Assumptions C16_linear_systems.

Theorem C16_exponential : forall lam h n t y i,
  rk4_iter (fun _ u j => lam * u j) h n t y i
  = (1 + h * lam + (h * lam) ^ 2 / 2 + (h * lam) ^ 3 / 6 + (h * lam) ^ 4 / 24) ^ n * y i.
Proof. exact RKProofs.rk4_exponential. Qed.
Print Assumptions C16_exponential.

Example C16_linear_nonvacuous : linear (yscal 3) /\ classical_rk4 (fun _ => yscal 3) 1 0 (fun _ => 1) 0%nat = 1 + 3 + 9/2 + 27/6 + 81/24.
Proof.
  split.
  - split; intros; apply FunctionalExtensionality.functional_extensionality; intros j; unfold yscal, yadd; ring.
  - unfold classical_rk4, yscal. field.
Qed.

(** C17 is false *)
Theorem C17_t_bound_refuted : 
  exists f t0 y0 tb h, let s := rk4_init f t0 y0 tb h in
  t0 >= tb /\ tb < t0 + h /\ rk_t (fst (rk4_step s)) <> rk_t s /\ snd (rk4_step s) = false
  /\ rk_t (rk4_steps 1000 s) = 1000.
Proof. exact RKProofs.rk4_bound_refuted. Qed.
Print Assumptions C17_t_bound_refuted.

(** what the code does: no call of step() is ever refused, whatever t_bound *)
Theorem C17_never_stops : forall f t0 y0 tb h n,
  snd (rk4_step (rk4_steps n (rk4_init f t0 y0 tb h))) = false.
Proof. exact RKProofs.rk4_never_stops. Qed.
Print Assumptions C17_never_stops.

Theorem C17_overshoots : forall f t0 y0 tb h T,
  0 < h -> exists n, rk_t (rk4_steps n (rk4_init f t0 y0 tb h)) > T.
Proof. exact RKProofs.rk4_overshoots. Qed.
Print Assumptions C17_overshoots.


(** C18: any number of further calls only warn and change nothing *)
Theorem C18_finished_solver : forall H (impl : solver H -> impl_result H) s,
  sv_status s <> Running ->
  forall n, rk45_step impl (rk45_steps impl n s) = (s, Warned).
Proof. exact RKProofs.rk45_done. Qed.
Print Assumptions C18_finished_solver.

Theorem C18_never_runtime_error : forall H (impl : solver H -> impl_result H) s,
  snd (rk45_step impl s) <> Escaped RuntimeError.
Proof. exact RKProofs.rk45_never_runtime_error. Qed.
Print Assumptions C18_never_runtime_error.

Theorem C18_escapes_only_rhs : forall H (impl : solver H -> impl_result H) s e,
  snd (rk45_step impl s) = Escaped e ->
  sv_status s = Running /\ exists t y h, impl s = ImplRaise t y h e.
Proof. exact RKProofs.rk45_escapes_only_rhs. Qed.
Print Assumptions C18_escapes_only_rhs.

Theorem C18_warns_iff : forall H (impl : solver H -> impl_result H) s,
  snd (rk45_step impl s) = Warned <->
  sv_status s <> Running \/ (sv_status s = Running /\ sv_n s <> 0%nat /\ sv_t s <> sv_bound s
  /\ exists t y h, impl s = ImplRaise t y h RuntimeError).
Proof. exact RKProofs.rk45_warns_iff. Qed.
Print Assumptions C18_warns_iff.

Theorem C18_defaults : forall t0 tb h fl rtol atol,
  let a := rk45_init t0 tb h rtol atol fl in
  a_t0 a = t0 /\ a_bound a = tb /\ a_first a = 8 / 10 * h /\ a_max a = 8 * h
  /\ (rtol = None -> a_rtol a = 2 / 10 * h) /\ (forall x, rtol = Some x -> a_rtol a = x)
  /\ (atol = None -> a_atol a = a_rtol a / 800) /\ (forall x, atol = Some x -> a_atol a = x)
  /\ (a_vectorized a = true <-> fl = false).
Proof. exact RKProofs.rk45_defaults. Qed.
Print Assumptions C18_defaults.

Example C18_nonvacuous : sv_status (mksolver 1 (fun _ => 0) 1 1 Finished 1 tt) <> Running.
Proof. discriminate. Qed.

(** C91: local error. [smooth_rhs]: the right-hand side has Lipschitz first partial derivatives near the point; [smooth_solution]: the exact
    solution has five derivatives there, the fifth bounded. *)
(** C91: one step from any point of the solution near t0 misses the solution by at most M |h|^5 *)
Theorem C91_local_error : forall n f y t0,
  reads n f -> smooth_rhs n f t0 (y t0) -> smooth_solution n f y t0 ->
  exists M rho, 0 < rho /\ forall t h tb, Rabs (t - t0) < rho -> Rabs h < rho -> forall i, (i < n)%nat ->
  Rabs (rk_y (fst (rk4_step (rk4_init f t (y t) tb h))) i - y (t + h) i) <= M * Rabs h ^ 5.
Proof. exact RKGlobal.rk4_local_error. Qed.
Print Assumptions C91_local_error.

(** for right-hand sides that are arithmetic programs no smoothness needs to be assumed *)
Theorem C91_program_rhs : forall n es y t0,
  system n es -> defined_for n es t0 (y t0) -> solves_near n (program_rhs es) y t0 ->
  exists M rho, 0 < rho /\ forall t h tb, Rabs (t - t0) < rho -> Rabs h < rho -> forall i, (i < n)%nat ->
  Rabs (rk_y (fst (rk4_step (rk4_init (program_rhs es) t (y t) tb h))) i - y (t + h) i) <= M * Rabs h ^ 5.
Proof. exact RKProg.program_local_error. Qed.
Print Assumptions C91_program_rhs.

Theorem C91_programs_are_smooth : forall n es t0 y0,
  system n es -> defined_for n es t0 y0 -> smooth_rhs n (program_rhs es) t0 y0.
Proof. exact RKProg.program_smooth. Qed.
Print Assumptions C91_programs_are_smooth.

Theorem C91_solutions_are_smooth : forall n es y t0,
  system n es -> defined_for n es t0 (y t0) -> solves_near n (program_rhs es) y t0 -> smooth_solution n (program_rhs es) y t0.
Proof. exact RKProg.program_solution. Qed.
Print Assumptions C91_solutions_are_smooth.


(** C92: global error on an interval of length T of either sign *)
(** C92: all of the N steps of size T/N stay within C (T/N)^4 of the solution *)
Theorem C92_global_convergence : forall n f y t0 T,
  reads n f -> T <> 0 ->
  (forall t, Rmin t0 (t0 + T) <= t <= Rmax t0 (t0 + T) -> smooth_rhs n f t (y t) /\ smooth_solution n f y t) ->
  exists C N0, (0 < N0)%nat /\ forall N tb k i, (N0 <= N)%nat -> (k <= N)%nat -> (i < n)%nat ->
  rk_t (rk4_steps k (rk4_init f t0 (y t0) tb (T / INR N))) = t0 + INR k * (T / INR N) /\
  Rabs (rk_y (rk4_steps k (rk4_init f t0 (y t0) tb (T / INR N))) i - y (t0 + INR k * (T / INR N)) i) <= C * (Rabs T / INR N) ^ 4.
Proof. exact RKGlobal2.rk4_converges. Qed.
Print Assumptions C92_global_convergence.

Theorem C92_program_rhs : forall n es y t0 T,
  system n es -> T <> 0 ->
  (forall t, Rmin t0 (t0 + T) <= t <= Rmax t0 (t0 + T) -> defined_for n es t (y t) /\ solves_near n (program_rhs es) y t) ->
  exists C N0, (0 < N0)%nat /\ forall N tb k i, (N0 <= N)%nat -> (k <= N)%nat -> (i < n)%nat ->
  rk_t (rk4_steps k (rk4_init (program_rhs es) t0 (y t0) tb (T / INR N))) = t0 + INR k * (T / INR N) /\
  Rabs (rk_y (rk4_steps k (rk4_init (program_rhs es) t0 (y t0) tb (T / INR N))) i - y (t0 + INR k * (T / INR N)) i) <= C * (Rabs T / INR N) ^ 4.
Proof. exact RKProg.program_converges. Qed.
Print Assumptions C92_program_rhs.


(** non-vacuity: y' = 2 t y^2, y = 1 / (1 - t^2), forwards to 1/2 and backwards to -1/2 *)
Example C91_nonvacuous : system 1 riccati /\ defined_for 1 riccati 0 ((fun t _ => / (1 - t * t)) 0) /\ solves_near 1 (program_rhs riccati) (fun t _ => / (1 - t * t)) 0
  /\ smooth_rhs 1 (program_rhs riccati) 0 ((fun t _ => / (1 - t * t)) 0) /\ smooth_solution 1 (program_rhs riccati) (fun t _ => / (1 - t * t)) 0.
Proof.
  assert (S : system 1 riccati) by (intros i Hi; reflexivity). destruct (riccati_solution 0 ltac:(lra)) as [A B].
  split; [exact S|]. split; [exact B|]. split; [exact A|]. split; [apply program_smooth; assumption|exact (program_solution 1 riccati (fun t _ => / (1 - t * t)) 0 S B A)].
Qed.
Example C92_nonvacuous : forall T, T = 1 / 2 \/ T = - (1 / 2) -> forall t, Rmin 0 (0 + T) <= t <= Rmax 0 (0 + T) ->
  defined_for 1 riccati t ((fun t _ => / (1 - t * t)) t) /\ solves_near 1 (program_rhs riccati) (fun t _ => / (1 - t * t)) t.
Proof. intros T HT t Ht. destruct (riccati_solution t) as [A B]; [|split; [exact B|exact A]]. revert Ht. unfold Rmin, Rmax. destruct HT as [-> | ->]; destruct Rle_dec; lra. Qed.
