(* generated from tools/P/P_Geodesic.v.in by tools/genp.py: statements only, proofs are references *)
(** Property C15: einsteinpy.geodesic.Geodesic / Nulllike / Timelike. *)
From Coq Require Import String Reals List ZArith Lra Lia Bool.
From Verif Require Import Base DualModel DualSpec GeoUtilsModel GeoUtilsSpec GeoUtilsProofs FantasyModel
  FantasyProofs FantasyProofs2 GeodesicModel GeodesicProofs GeodesicDef.
Import ListNotations.
Open Scope R_scope.

(** C15: rows and step numbers *)
Theorem C15_trajectory : forall g q0 p0 tl cart kw steps rows,
  calculate_trajectory g q0 p0 tl cart kw = Ok (steps, rows) ->
  steps = seq 0 (k_steps kw) /\ length rows = k_steps kw /\ (0 < k_steps kw)%nat
  /\ exists l, chain (one_step g kw) (mkQ4 q0 p0 q0 p0) l /\ rows = map (present cart) l.
Proof. exact GeodesicProofs.trajectory_spec. Qed.
Print Assumptions C15_trajectory.

Theorem C15_rows_are_iterates : forall f s0 l,
  chain f s0 l -> forall i s, nth_error l i = Some s ->
  match i with O => f s0 = Ok s | S j => exists s', nth_error l j = Some s' /\ f s' = Ok s end.
Proof. exact GeodesicProofs.chain_nth. Qed.
Print Assumptions C15_rows_are_iterates.

Theorem C15_steps_complete : forall n,
  forall It l, chain (next It) (i_res It) l -> length l = n ->
  exists It2, run_steps n It = Ok It2 /\ i_results It2 = i_results It ++ l.
Proof. exact GeodesicProofs.run_steps_progress. Qed.
Print Assumptions C15_steps_complete.

Theorem C15_modes_agree : forall g q0 p0 tl kw steps rows,
  calculate_trajectory g q0 p0 tl false kw = Ok (steps, rows) ->
  calculate_trajectory g q0 p0 tl true kw = Ok (steps, map (fun r => (to_cartesian (fst r), snd r)) rows).
Proof. exact GeodesicProofs.modes_agree. Qed.
Print Assumptions C15_modes_agree.

Theorem C15_geodesic : forall m prms pos mom tl cart kw geo,
  mk_geodesic m prms pos mom tl cart kw = Ok geo ->
  exists call g,
  resolve_metric m = Ok call /\ call (resolve_params m prms) = Ok g
  /\ geo_position geo = mkQ4 0 (fst (fst pos)) (snd (fst pos)) (snd pos)
  /\ (exists gP, call prms = Ok gP /\
  P4 gP (geo_position geo) (fst (fst mom)) (snd (fst mom)) (snd mom) tl = Ok (geo_momentum geo))
  /\ calculate_trajectory g (geo_position geo) (geo_momentum geo) tl cart kw = Ok (geo_trajectory geo).
Proof. exact GeodesicProofs.geodesic_spec. Qed.
Print Assumptions C15_geodesic.

(** the documented defaults: 50 steps of order 2, size 1/2, coupling 1 *)
Theorem C15_defaults : forall m prms pos mom tl cart geo,
  mk_geodesic m prms pos mom tl cart default_kwargs = Ok geo ->
  exists call g l, resolve_metric m = Ok call /\ call (resolve_params m prms) = Ok g /\ length (snd (geo_trajectory geo)) = 50%nat /\
  chain (ord_2 (metricfun_of g) 1 (1/2)) (mkQ4 (geo_position geo) (geo_momentum geo) (geo_position geo) (geo_momentum geo)) l /\ snd (geo_trajectory geo) = map (present cart) l.
Proof. exact GeodesicDef.default_trajectory. Qed.
Print Assumptions C15_defaults.

Theorem C15_unknown_metric : forall m prms pos mom tl cart kw,
  (m = MOther \/ exists s, m = MName s /\ s <> "Schwarzschild"%string /\ s <> "Kerr"%string /\ s <> "KerrNewman"%string) ->
  mk_geodesic m prms pos mom tl cart kw = Err NotImplementedError.
Proof. exact GeodesicProofs.unknown_metric. Qed.
Print Assumptions C15_unknown_metric.

Theorem C15_unknown_order : forall m prms pos mom tl cart kw geo,
  ~ In (k_order kw) [2;4;6;8]%nat ->
  mk_geodesic m prms pos mom tl cart kw <> Ok geo.
Proof. exact GeodesicProofs.unknown_order. Qed.
Print Assumptions C15_unknown_order.

Theorem C15_unknown_order_exception : forall g q0 p0 tl cart kw,
  ~ In (k_order kw) [2;4;6;8]%nat ->
  calculate_trajectory g q0 p0 tl cart kw = Err NotImplementedError.
Proof. exact GeodesicProofs.unknown_order_exn. Qed.
Print Assumptions C15_unknown_order_exception.

(** steps=0 does not give an empty trajectory but IndexError *)
Theorem C15_zero_steps_refuted : forall g q0 p0 tl cart kw,
  k_steps kw = 0%nat -> In (k_order kw) [2;4;6;8]%nat ->
  calculate_trajectory g q0 p0 tl cart kw = Err IndexError.
Proof. exact GeodesicProofs.zero_steps. Qed.
Print Assumptions C15_zero_steps_refuted.


Example C15_nonvacuous : In (k_order default_kwargs) [2;4;6;8]%nat /\ (0 < k_steps default_kwargs)%nat.
Proof. split; [left; reflexivity|cbn; lia]. Qed.

(** [book] names the textbook line elements; the metric integrated is their inverse, the initial momentum is on its shell *)
Theorem C15_named_metric : forall s prms cov out r th ph u1 u2 u3 tl cart kw geo,
  book s prms cov out -> out r th ->
  mk_geodesic (MName s) prms (r, th, ph) (u1, u2, u3) tl cart kw = Ok geo ->
  exists g guu,
  (forall t' r' th' ph', out r' th' -> exists m, metric_at g (mk4 t' r' th' ph') = Ok m /\ inverse_of m (cov r' th'))
  /\ inverse_of guu (cov r th) /\ geo_position geo = mk4 0 r th ph
  /\ on_shell_future guu (geo_momentum geo) u1 u2 u3 tl
  /\ calculate_trajectory g (geo_position geo) (geo_momentum geo) tl cart kw = Ok (geo_trajectory geo).
Proof. exact GeodesicProofs.named_geodesic. Qed.
Print Assumptions C15_named_metric.

Theorem C15_timelike : forall s prms cov out r th ph u1 u2 u3 cart kw geo,
  book s prms cov out -> out r th ->
  mk_timelike (MName s) prms (r, th, ph) (u1, u2, u3) cart kw = Ok geo ->
  exists guu, inverse_of guu (cov r th) /\ quad guu (geo_momentum geo) = -1 /\ c1 (geo_momentum geo) = u1 /\ c2 (geo_momentum geo) = u2 /\ c3 (geo_momentum geo) = u3.
Proof. exact GeodesicProofs.timelike_shell. Qed.
Print Assumptions C15_timelike.

Theorem C15_nulllike : forall s prms cov out r th ph u1 u2 u3 cart kw geo,
  book s prms cov out -> out r th ->
  mk_nulllike (MName s) prms (r, th, ph) (u1, u2, u3) cart kw = Ok geo ->
  exists guu, inverse_of guu (cov r th) /\ quad guu (geo_momentum geo) = 0 /\ c1 (geo_momentum geo) = u1 /\ c2 (geo_momentum geo) = u2 /\ c3 (geo_momentum geo) = u3.
Proof. exact GeodesicProofs.nulllike_shell. Qed.
Print Assumptions C15_nulllike.

Theorem C15_cartesian : forall g q0 p0 tl kw steps rows,
  calculate_trajectory g q0 p0 tl false kw = Ok (steps, rows) ->
  calculate_trajectory g q0 p0 tl true kw = Ok (steps, map (fun qp : V4 * V4 => let '(mkQ4 t r th ph, p) := qp in
  (mkQ4 t (r * sin th * cos ph) (r * sin th * sin ph) (r * cos th), p)) rows).
Proof. exact GeodesicProofs.cartesian_rows. Qed.
Print Assumptions C15_cartesian.

Example C15_book_nonvacuous : book "Kerr" [9/10] (kn_cov (9/10) 0) (fun r th => 0 < r /\ 0 < DeltaS r (9/10) 0 /\ sin th <> 0) /\ (0 < 10 /\ 0 < DeltaS 10 (9/10) 0 /\ sin (PI / 2) <> 0).
Proof. split; [constructor|]. unfold DeltaS. rewrite sin_PI2. repeat split; lra. Qed.
