(** Model of src/einsteinpy/integrators/runge_kutta.py: RK4naive and the RK45 wrapper.
    An array (or float) y is a family of reals indexed by nat; +, scalar * act componentwise (numpy broadcasting of
    equal shapes).  Exact reals. *)
From Coq Require Import Reals List ZArith Lra Lia Bool.
From Verif Require Import Base.
Open Scope R_scope.

Definition Y := nat -> R.
Definition yadd (u v : Y) : Y := fun i => u i + v i.
Definition yscal (k : R) (u : Y) : Y := fun i => k * u i.

Definition b2Z (b : bool) : Z := if b then 1%Z else 0%Z.
Definition Rgeb (x y : R) : bool := if Rle_dec y x then true else false.
Definition Rltb (x y : R) : bool := if Rlt_dec x y then true else false.

Record rk4 := mkrk4 { rk_t : R; rk_y : Y; rk_bound : R; rk_h : R; rk_fun : R -> Y -> Y; rk_direction : Z }.

(** runge_kutta.py:12-35; line 35: direction = 1*(t_bound >= t0) - 1*(not t_bound < t0) *)
Definition rk4_init (f : R -> Y -> Y) (t0 : R) (y0 : Y) (t_bound h : R) : rk4 :=
  mkrk4 t0 y0 t_bound h f (b2Z (Rgeb t_bound t0) - b2Z (negb (Rltb t_bound t0))).

(** runge_kutta.py:41-45, the guard *)
Definition rk4_out_of_bounds (s : rk4) : bool :=
  (Rgeb (rk_t s) (rk_bound s) && Z.eqb (rk_direction s) 1)
  || (Rgeb (rk_bound s) (rk_t s) && Z.eqb (rk_direction s) (-1)).

(** runge_kutta.py:37-55; returns the new object and whether it warned *)
Definition rk4_step (s : rk4) : rk4 * bool :=
  if rk4_out_of_bounds s then (s, true)
  else
    let f := rk_fun s in let t := rk_t s in let y := rk_y s in let h := rk_h s in
    let k0 := f t y in
    let k1 := f (t + h / 2) (yadd y (yscal (h / 2) k0)) in
    let k2 := f (t + h / 2) (yadd y (yscal (h / 2) k1)) in
    let k3 := f (t + h) (yadd y (yscal h k2)) in
    let y' := yadd y (yscal (h / 6) (yadd (yadd (yadd k0 (yscal 2 k1)) (yscal 2 k2)) k3)) in
    (mkrk4 (t + h) y' (rk_bound s) h f (rk_direction s), false).

Fixpoint rk4_steps (n : nat) (s : rk4) : rk4 :=
  match n with O => s | S n => rk4_steps n (fst (rk4_step s)) end.

(** ** RK45: a thin wrapper over scipy.integrate.RK45. *)
Inductive status := Running | Finished | Failed.
(** What the wrapper can observe of the scipy solver: t, y, status; [sv_hidden] is the rest. *)
Record solver (H : Type) := mksolver { sv_t : R; sv_y : Y; sv_bound : R; sv_dir : R; sv_status : status; sv_n : nat; sv_hidden : H }.
Arguments mksolver {H}. Arguments sv_t {H}. Arguments sv_y {H}. Arguments sv_bound {H}. Arguments sv_dir {H}.
Arguments sv_status {H}. Arguments sv_n {H}. Arguments sv_hidden {H}.

(** scipy's _step_impl is an arbitrary function: it may succeed, report failure, or let an exception of the user's
    right-hand side escape (possibly after modifying the solver). *)
Inductive impl_result (H : Type) :=
| ImplOk (t : R) (y : Y) (h : H)
| ImplFail (h : H)
| ImplRaise (t : R) (y : Y) (h : H) (e : exn).
Arguments ImplOk {H}. Arguments ImplFail {H}. Arguments ImplRaise {H}.

(** scipy.integrate.OdeSolver.step (external; as documented): RuntimeError unless running *)
Definition scipy_step {H} (impl : solver H -> impl_result H) (s : solver H) : solver H * option exn :=
  match sv_status s with
  | Running =>
      if (Nat.eqb (sv_n s) 0 || (if Req_EM_T (sv_t s) (sv_bound s) then true else false))%bool then
        (mksolver (sv_bound s) (sv_y s) (sv_bound s) (sv_dir s) Finished (sv_n s) (sv_hidden s), None)
      else match impl s with
        | ImplOk t y h =>
            (mksolver t y (sv_bound s) (sv_dir s) (if Rle_dec 0 (sv_dir s * (t - sv_bound s)) then Finished else Running)
               (sv_n s) h, None)
        | ImplFail h => (mksolver (sv_t s) (sv_y s) (sv_bound s) (sv_dir s) Failed (sv_n s) h, None)
        | ImplRaise t y h e => (mksolver t y (sv_bound s) (sv_dir s) Running (sv_n s) h, Some e)
        end
  | _ => (s, Some RuntimeError)
  end.

Inductive rk45_outcome := Stepped | Warned | Escaped (e : exn).

(** runge_kutta.py:103-114 *)
Definition rk45_step {H} (impl : solver H -> impl_result H) (s : solver H) : solver H * rk45_outcome :=
  match scipy_step impl s with
  | (s', None) => (s', Stepped)
  | (s', Some RuntimeError) => (s', Warned)
  | (s', Some e) => (s', Escaped e)
  end.
Fixpoint rk45_steps {H} (impl : solver H -> impl_result H) (n : nat) (s : solver H) : solver H :=
  match n with O => s | S n => rk45_steps impl n (fst (rk45_step impl s)) end.

(** runge_kutta.py:85-101: the arguments handed to scipy *)
Record scipy_args := mkargs { a_t0 : R; a_bound : R; a_first : R; a_max : R; a_rtol : R; a_atol : R; a_vectorized : bool }.
Definition rk45_init (t0 t_bound h : R) (rtol atol : option R) (y0_is_float : bool) : scipy_args :=
  let rt := match rtol with None => 2 / 10 * h | Some x => x end in
  let at_ := match atol with None => rt / 800 | Some x => x end in
  mkargs t0 t_bound (8 / 10 * h) (8 * h) rt at_ (negb y0_is_float).
