(** Model of src/einsteinpy/geodesic/geodesic.py (Geodesic, Nulllike, Timelike).
    Simplifications: kwargs are explicit arguments (the defaults of lines 205-211 are [default_kwargs]); warnings
    are not turned into errors; a nan 4-momentum is [Err NonFinite]; `metric` is hashable. *)
From Coq Require Import Reals List ZArith Lra Bool String.
From Verif Require Import Base DualModel GeoUtilsModel FantasyModel.
Import ListNotations.
Open Scope R_scope.

(** What may be passed as [metric]: a string, a callable (given its params tuple), or something else *)
Inductive metric_arg := MName (s : string) | MCallable (f : list R -> Res metricP) | MOther.

Record kwargs := mkkw { k_steps : nat; k_delta : R; k_rtol : R; k_atol : R; k_order : nat; k_omega : R; k_suppress : bool }.
(** geodesic.py:205-211 *)
Definition default_kwargs : kwargs := mkkw 50 (1/2) (1/100) (1/100) 2 1 false.

(** geodesic/utils.py:110, 166, 204: the callables index their params tuple *)
Definition sch_call (prms : list R) : Res metricP := Ok schE.
Definition kerr_call (prms : list R) : Res metricP :=
  match prms with a :: _ => Ok (kerrE a) | [] => Err IndexError end.
Definition kerrnewman_call (prms : list R) : Res metricP :=
  match prms with a :: Q :: _ => Ok (kerrnewmanE a Q) | _ => Err IndexError end.

(** geodesic.py:95-112 *)
Definition resolve_metric (m : metric_arg) : Res (list R -> Res metricP) :=
  match m with
  | MName s =>
      if String.eqb s "Schwarzschild" then Ok sch_call
      else if String.eqb s "Kerr" then Ok kerr_call
      else if String.eqb s "KerrNewman" then Ok kerrnewman_call
      else Err NotImplementedError
  | MCallable f => Ok f
  | MOther => Err NotImplementedError
  end.

(** geodesic.py:114-116 *)
Definition resolve_params (m : metric_arg) (prms : list R) : list R :=
  match m with MName s => if String.eqb s "Schwarzschild" then [0] else prms | _ => prms end.

(** one 8-column row of the returned array *)
Definition row := (V4 * V4)%type.

(** geodesic.py:241-253 *)
Definition to_cartesian (q : V4) : V4 :=
  let t := c0 q in let r := c1 q in let th := c2 q in let ph := c3 q in
  mkQ4 t (r * sin th * cos ph) (r * sin th * sin ph) (r * cos th).

(** the loop of lines 229-230 *)
Fixpoint run_steps (n : nat) (It : integ) : Res integ :=
  match n with
  | O => Ok It
  | S n => match step false It with
           | (It2, Done _) => run_steps n It2
           | (_, Raised e) => Err e
           end
  end.

(** geodesic.py:152-255 (calculate_trajectory): returns (steps, rows); with no step results is an empty list,
    np.array([]) has shape (0,) and vecs[:, 0] raises IndexError *)
Definition calculate_trajectory (g : metricP) (q0 p0 : V4) (tl cartesian : bool) (kw : kwargs) : Res (list nat * list row) :=
  let* It := mk_integrator (metricfun_of g) q0 p0 tl (k_delta kw) (k_rtol kw) (k_atol kw) (k_order kw) (k_omega kw)
              (k_suppress kw) in
  let* It2 := run_steps (k_steps kw) It in
  match i_results It2 with
  | [] => Err IndexError
  | vecs =>
      let rows := map (fun s => (q1 s, p1 s)) vecs in
      if cartesian then Ok (seq 0 (k_steps kw), map (fun r => (to_cartesian (fst r), snd r)) rows)
      else Ok (seq 0 (k_steps kw), rows)
  end.

Record geodesic := mkgeo { geo_position : V4; geo_momentum : V4; geo_trajectory : list nat * list row }.

(** geodesic.py:18-126; note _P (line 118) gets the *original* metric_params, the integrator self.metric_params *)
Definition mk_geodesic (m : metric_arg) (prms : list R) (pos mom : R * R * R) (tl cartesian : bool) (kw : kwargs)
    : Res geodesic :=
  let* call := resolve_metric m in
  let '(x1, x2, x3) := pos in
  let '(u1, u2, u3) := mom in
  let position := mkQ4 0 x1 x2 x3 in
  let* gP := call prms in
  let* momentum := P4 gP position u1 u2 u3 tl in
  let* gI := call (resolve_params m prms) in
  let* traj := calculate_trajectory gI position momentum tl cartesian kw in
  Ok (mkgeo position momentum traj).

(** geodesic.py:258-336, 339-417 *)
Definition mk_nulllike m prms pos mom cartesian kw := mk_geodesic m prms pos mom false cartesian kw.
Definition mk_timelike m prms pos mom cartesian kw := mk_geodesic m prms pos mom true cartesian kw.
