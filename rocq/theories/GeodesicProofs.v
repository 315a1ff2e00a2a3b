From Coq Require Import String Reals List ZArith Lra Lia Bool.
From Verif Require Import Base DualModel DualSpec GeoUtilsModel GeoUtilsSpec GeoUtilsProofs
  FantasyModel FantasyProofs FantasyProofs2 GeodesicModel.
Import ListNotations.
Open Scope R_scope.

Lemma unknown_metric m prms pos mom tl cart kw : 
  (m = MOther \/ exists s, m = MName s /\ s <> "Schwarzschild"%string /\ s <> "Kerr"%string /\ s <> "KerrNewman"%string) ->
  mk_geodesic m prms pos mom tl cart kw = Err NotImplementedError.
Proof.
  intros [->|(s & -> & H1 & H2 & H3)]; unfold mk_geodesic, resolve_metric; [reflexivity|].
  apply String.eqb_neq in H1, H2, H3. rewrite H1, H2, H3. reflexivity.
Qed.

Lemma unknown_order m prms pos mom tl cart kw geo : ~ In (k_order kw) [2;4;6;8]%nat ->
  mk_geodesic m prms pos mom tl cart kw <> Ok geo.
Proof.
  intros Ho H. unfold mk_geodesic in H. apply bindR_Ok in H. destruct H as (call & _ & H).
  destruct pos as [[x1 x2] x3], mom as [[u1 u2] u3].
  apply bindR_Ok in H. destruct H as (gP & _ & H). apply bindR_Ok in H. destruct H as (mo & _ & H).
  apply bindR_Ok in H. destruct H as (gI & _ & H). apply bindR_Ok in H. destruct H as (tr & H & _).
  unfold calculate_trajectory, mk_integrator in H.
  destruct (integrator_of (k_order kw) (metricfun_of gI) (k_omega kw)) eqn:E; [|discriminate H].
  apply Ho. simpl. destruct (k_order kw) as [|[|[|[|[|[|[|[|[|?]]]]]]]]]; simpl in E; try discriminate; tauto.
Qed.

(** order error is NotImplementedError once metric and initial data are fine *)
Lemma unknown_order_exn g q0 p0 tl cart kw : ~ In (k_order kw) [2;4;6;8]%nat ->
  calculate_trajectory g q0 p0 tl cart kw = Err NotImplementedError.
Proof.
  intros Ho. unfold calculate_trajectory, mk_integrator.
  destruct (k_order kw) as [|[|[|[|[|[|[|[|[|?]]]]]]]]]; simpl in Ho; try reflexivity; exfalso; apply Ho; tauto.
Qed.

Lemma run_steps_spec n : forall It It2, run_steps n It = Ok It2 ->
  exists l, length l = n /\ i_results It2 = i_results It ++ l /\ chain (next It) (i_res It) l.
Proof.
  induction n as [|n IH]; intros It It2 H; cbn [run_steps] in H.
  - apply Ok_inj in H. subst. exists []. rewrite app_nil_r. repeat split; constructor.
  - destruct (next It (i_res It)) as [arr|e] eqn:E.
    + destruct (step_ok It arr E) as (b & Hs & _). rewrite Hs in H.
      destruct (IH _ _ H) as (l & L & R & C). exists (arr :: l). cbn [i_results i_res] in *.
      rewrite R, <- app_assoc. split; [simpl; lia|]. split; [reflexivity|].
      constructor; [exact E|]. eapply chain_ext; [|exact C]. intros s. apply next_step; reflexivity.
    + rewrite (step_err false It e E) in H. discriminate.
Qed.

Lemma run_steps_progress n : forall It l, chain (next It) (i_res It) l -> length l = n ->
  exists It2, run_steps n It = Ok It2 /\ i_results It2 = i_results It ++ l.
Proof.
  induction n as [|n IH]; intros It l C L.
  - destruct l; [|discriminate]. exists It. rewrite app_nil_r. split; reflexivity.
  - destruct l as [|s' l]; [discriminate|]. inversion C as [|? ? ? E C']; subst. cbn [run_steps].
    destruct (step_ok It s' E) as (b & Hs & _). rewrite Hs.
    destruct (IH (mkinteg (i_metric It) (i_delta It) (i_omega It) (i_order It) (i_rtol It)
         (i_atol It) (i_time_like It) (i_suppress It) (S (i_step_num It)) s' (i_results It ++ [s'])) l) as (It2 & H1 & H2).
    + cbn [i_res]. eapply chain_ext; [|exact C']. intros s. symmetry. apply next_step; reflexivity.
    + simpl in L. lia.
    + exists It2. split; [exact H1|]. rewrite H2. cbn [i_results]. rewrite <- app_assoc. reflexivity.
Qed.

(** the one-step map of the requested order *)
Definition one_step (g : metricP) (kw : kwargs) (s : state) : Res state :=
  let* f := integrator_of (k_order kw) (metricfun_of g) (k_omega kw) in f (k_delta kw) s.

Definition present (cart : bool) (s : state) : row :=
  if cart then (to_cartesian (q1 s), p1 s) else (q1 s, p1 s).

Lemma map_present (cart : bool) (vecs : list state) :
  (if cart then map (fun r : row => (to_cartesian (fst r), snd r)) (map (fun s : state => (q1 s, p1 s)) vecs)
   else map (fun s : state => (q1 s, p1 s)) vecs) = map (present cart) vecs.
Proof. destruct cart; [rewrite map_map|]; reflexivity. Qed.

Lemma trajectory_spec g q0 p0 tl cart kw steps rows :
  calculate_trajectory g q0 p0 tl cart kw = Ok (steps, rows) ->
  steps = seq 0 (k_steps kw) /\ length rows = k_steps kw /\ (0 < k_steps kw)%nat
  /\ exists l, chain (one_step g kw) (mkQ4 q0 p0 q0 p0) l /\ rows = map (present cart) l.
Proof.
  intros H. unfold calculate_trajectory in H. apply bindR_Ok in H. destruct H as (It & HI & H).
  apply bindR_Ok in H. destruct H as (It2 & Hr & H).
  destruct (run_steps_spec _ _ _ Hr) as (l & L & R & C).
  unfold mk_integrator in HI. apply bindR_Ok in HI. destruct HI as (f & Hf & HI). apply Ok_inj in HI. subst It.
  cbn [i_results i_res] in *. simpl app in R. rewrite R in H.
  assert (HC : chain (one_step g kw) (mkQ4 q0 p0 q0 p0) l).
  { eapply chain_ext; [|exact C]. intros s. reflexivity. }
  destruct l as [|s0 l]; [discriminate|].
  assert (E : Ok (seq 0 (k_steps kw), map (present cart) (s0 :: l)) = Ok (steps, rows)).
  { rewrite <- H, <- map_present. destruct cart; reflexivity. }
  apply Ok_inj in E. injection E as E1 E2. subst steps rows.
  split; [reflexivity|]. split; [exact (eq_trans (map_length _ _) L)|]. split; [simpl in L; lia|].
  exists (s0 :: l). split; [exact HC|reflexivity].
Qed.

Lemma chain_nth f s0 l : chain f s0 l -> forall i s, nth_error l i = Some s ->
  match i with O => f s0 = Ok s | S j => exists s', nth_error l j = Some s' /\ f s' = Ok s end.
Proof.
  induction 1 as [s0|s0 s1 l E C IH]; intros i s Hi.
  - destruct i; discriminate.
  - destruct i as [|i]; simpl in Hi.
    + inversion Hi; subst. exact E.
    + specialize (IH i s Hi). destruct i as [|i].
      * exists s1. split; [reflexivity|exact IH].
      * destruct IH as (s' & H1 & H2). exists s'. split; assumption.
Qed.

Lemma zero_steps g q0 p0 tl cart kw : k_steps kw = 0%nat -> In (k_order kw) [2;4;6;8]%nat ->
  calculate_trajectory g q0 p0 tl cart kw = Err IndexError.
Proof.
  intros H0 Ho. unfold calculate_trajectory, mk_integrator.
  destruct (k_order kw) as [|[|[|[|[|[|[|[|[|?]]]]]]]]]; simpl in Ho; try (exfalso; lia);
    cbn [integrator_of bindR]; rewrite H0; reflexivity.
Qed.

(** both coordinate modes agree *)
Lemma modes_agree g q0 p0 tl kw steps rows :
  calculate_trajectory g q0 p0 tl false kw = Ok (steps, rows) ->
  calculate_trajectory g q0 p0 tl true kw = Ok (steps, map (fun r => (to_cartesian (fst r), snd r)) rows).
Proof.
  unfold calculate_trajectory. intros H. apply bindR_Ok in H. destruct H as (It & HI & H).
  rewrite HI. cbn [bindR]. apply bindR_Ok in H. destruct H as (It2 & Hr & H). rewrite Hr. cbn [bindR].
  destruct (i_results It2); [discriminate|]. apply Ok_inj in H. inversion H; subst. reflexivity.
Qed.

Lemma geodesic_spec m prms pos mom tl cart kw geo :
  mk_geodesic m prms pos mom tl cart kw = Ok geo ->
  exists call g,
    resolve_metric m = Ok call /\ call (resolve_params m prms) = Ok g
    /\ geo_position geo = mkQ4 0 (fst (fst pos)) (snd (fst pos)) (snd pos)
    /\ (exists gP, call prms = Ok gP /\
          P4 gP (geo_position geo) (fst (fst mom)) (snd (fst mom)) (snd mom) tl = Ok (geo_momentum geo))
    /\ calculate_trajectory g (geo_position geo) (geo_momentum geo) tl cart kw = Ok (geo_trajectory geo).
Proof.
  intros H. unfold mk_geodesic in H. apply bindR_Ok in H. destruct H as (call & Hc & H).
  destruct pos as [[x1 x2] x3], mom as [[u1 u2] u3].
  apply bindR_Ok in H. destruct H as (gP & HgP & H). apply bindR_Ok in H. destruct H as (mo & Hmo & H).
  apply bindR_Ok in H. destruct H as (gI & HgI & H). apply bindR_Ok in H. destruct H as (tr & Htr & H).
  apply Ok_inj in H. subst geo. exists call, gI. repeat split; auto. exists gP. split; assumption.
Qed.

(** which textbook line element (GeoUtilsSpec.v) a metric name stands for, and where it is outside the horizon *)
Inductive book : string -> list R -> (R -> R -> M4) -> (R -> R -> Prop) -> Prop :=
| book_sch prms : book "Schwarzschild" prms sch_cov (fun r th => 2 < r /\ sin th <> 0)
| book_kerr a l : book "Kerr" (a :: l) (kn_cov a 0) (fun r th => 0 < r /\ 0 < DeltaS r a 0 /\ sin th <> 0)
| book_kn a Q l : book "KerrNewman" (a :: Q :: l) (kn_cov a Q) (fun r th => 0 < r /\ Q * Q <= 2 * r /\ 0 < DeltaS r a Q /\ sin th <> 0).
Lemma sigma_pos r th a : 0 < r -> SigmaS r th a <> 0.
Proof. intros H. unfold SigmaS. assert (0 <= (a * cos th) * (a * cos th)) by (apply Rle_0_sqr). nra. Qed.
Lemma named_geodesic s prms cov out r th ph u1 u2 u3 tl cart kw geo : book s prms cov out -> out r th ->
  mk_geodesic (MName s) prms (r, th, ph) (u1, u2, u3) tl cart kw = Ok geo ->
  exists g guu,
    (forall t' r' th' ph', out r' th' -> exists m, metric_at g (mk4 t' r' th' ph') = Ok m /\ inverse_of m (cov r' th'))
    /\ inverse_of guu (cov r th) /\ geo_position geo = mk4 0 r th ph
    /\ on_shell_future guu (geo_momentum geo) u1 u2 u3 tl
    /\ calculate_trajectory g (geo_position geo) (geo_momentum geo) tl cart kw = Ok (geo_trajectory geo).
Proof.
  intros HB Ho H. destruct (geodesic_spec _ _ _ _ _ _ _ _ H) as (call & g & Hc & Hg & Hp & (gP & HgP & HP) & Ht).
  cbn [fst snd] in *. change (mkQ4 0 r th ph) with (mk4 0 r th ph) in Hp. exists g. rewrite Hp in HP.
  inversion HB; subst s prms cov out; cbn [resolve_metric String.eqb Ascii.eqb Bool.eqb] in Hc; apply Ok_inj in Hc; subst call; cbn [resolve_params String.eqb Ascii.eqb Bool.eqb] in Hg;
    cbn [sch_call kerr_call kerrnewman_call] in Hg, HgP; apply Ok_inj in Hg, HgP; subst g gP.
  - destruct Ho as [H2 Hs]. destruct (P4_sch 0 r th ph u1 u2 u3 tl H2 Hs) as (guu & P & E1 & E2 & E3). exists guu. rewrite HP in E2. apply Ok_inj in E2. subst P.
    destruct (sch_metric_inverse 0 r th ph) as (m & E4 & E5); [lra|lra|exact Hs|]. rewrite E1 in E4. apply Ok_inj in E4. subst m.
    split; [|split; [exact E5|split; [exact Hp|split; [exact E3|exact Ht]]]].
    intros t' r' th' ph' [H2' Hs']. apply sch_metric_inverse; [lra|lra|exact Hs'].
  - destruct Ho as [H2 [HD Hs]]. destruct (P4_kerr a 0 r th ph u1 u2 u3 tl H2 HD Hs) as (guu & P & E1 & E2 & E3). exists guu. rewrite HP in E2. apply Ok_inj in E2. subst P.
    destruct (kerr_metric_inverse a 0 r th ph) as (m & E4 & E5); [apply sigma_pos; exact H2|lra|exact Hs|]. rewrite E1 in E4. apply Ok_inj in E4. subst m.
    split; [|split; [exact E5|split; [exact Hp|split; [exact E3|exact Ht]]]].
    intros t' r' th' ph' [H2' [HD' Hs']]. apply kerr_metric_inverse; [apply sigma_pos; exact H2'|lra|exact Hs'].
  - destruct Ho as [H2 [HQ [HD Hs]]]. destruct (P4_kerrnewman a Q 0 r th ph u1 u2 u3 tl H2 HQ HD Hs) as (guu & P & E1 & E2 & E3). exists guu. rewrite HP in E2. apply Ok_inj in E2. subst P.
    destruct (kn_metric_inverse a Q 0 r th ph) as (m & E4 & E5); [apply sigma_pos; exact H2|lra|exact Hs|]. rewrite E1 in E4. apply Ok_inj in E4. subst m.
    split; [|split; [exact E5|split; [exact Hp|split; [exact E3|exact Ht]]]].
    intros t' r' th' ph' [H2' [HQ' [HD' Hs']]]. apply kn_metric_inverse; [apply sigma_pos; exact H2'|lra|exact Hs'].
Qed.
(** Timelike / Nulllike objects start on the unit / null shell, with the given spatial momentum *)
Lemma timelike_shell s prms cov out r th ph u1 u2 u3 cart kw geo : book s prms cov out -> out r th ->
  mk_timelike (MName s) prms (r, th, ph) (u1, u2, u3) cart kw = Ok geo ->
  exists guu, inverse_of guu (cov r th) /\ quad guu (geo_momentum geo) = -1 /\ c1 (geo_momentum geo) = u1 /\ c2 (geo_momentum geo) = u2 /\ c3 (geo_momentum geo) = u3.
Proof.
  intros HB Ho H. destruct (named_geodesic _ _ _ _ _ _ _ _ _ _ _ _ _ _ HB Ho H) as (g & guu & _ & HI & _ & HS & _). exists guu. split; [exact HI|].
  unfold on_shell_future in HS. cbn [b2R] in HS. intuition lra.
Qed.
Lemma nulllike_shell s prms cov out r th ph u1 u2 u3 cart kw geo : book s prms cov out -> out r th ->
  mk_nulllike (MName s) prms (r, th, ph) (u1, u2, u3) cart kw = Ok geo ->
  exists guu, inverse_of guu (cov r th) /\ quad guu (geo_momentum geo) = 0 /\ c1 (geo_momentum geo) = u1 /\ c2 (geo_momentum geo) = u2 /\ c3 (geo_momentum geo) = u3.
Proof.
  intros HB Ho H. destruct (named_geodesic _ _ _ _ _ _ _ _ _ _ _ _ _ _ HB Ho H) as (g & guu & _ & HI & _ & HS & _). exists guu. split; [exact HI|].
  unfold on_shell_future in HS. cbn [b2R] in HS. intuition lra.
Qed.
(** cartesian output: x = r sin th cos ph, y = r sin th sin ph, z = r cos th, everything else unchanged *)
Lemma cartesian_rows g q0 p0 tl kw steps rows :
  calculate_trajectory g q0 p0 tl false kw = Ok (steps, rows) ->
  calculate_trajectory g q0 p0 tl true kw = Ok (steps, map (fun qp : V4 * V4 => let '(mkQ4 t r th ph, p) := qp in
     (mkQ4 t (r * sin th * cos ph) (r * sin th * sin ph) (r * cos th), p)) rows).
Proof.
  intros H. rewrite (modes_agree _ _ _ _ _ _ _ H). f_equal. f_equal. apply map_ext. intros [[t r th ph] p]. reflexivity.
Qed.
