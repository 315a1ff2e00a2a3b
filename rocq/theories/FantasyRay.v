(** Radial light rays in Schwarzschild spacetime. *)
From Coq Require Import String Reals List ZArith Lra Lia Bool.
From Coquelicot Require Import Coquelicot.
From Verif Require Import Base Calc DualModel DualSpec DualProofs DualDiff GeoUtilsModel GeoUtilsSpec GeoUtilsProofs GeodesicModel GeodesicProofs
  FantasyModel FantasyProofs FantasyProofs2 FantasyProofs3 FantasyHam FantasySymp ProgCont WordSeries WordOrder FantasyOrder FantasyOrder2 FantasyOrder3 FantasyOrder4 FantasyGlobal FantasyGlobal2 FantasyGlobal3 FantasyShell FantasySymm4 FantasySymm5 FantasyPlane FantasyCircular.
Import ListNotations.
Open Scope R_scope.

Section Ray.
Variables (r0 th ph : R).
Hypothesis Hr0 : 2 < r0.
Hypothesis Hth : sin th <> 0.
(** outgoing: r = r0 + s, t = s + 2 ln((r0 + s - 2) / (r0 - 2)) (the Schwarzschild tortoise coordinate), p_r = r / (r - 2) *)
Definition ray_q (s : R) : V4 := mkQ4 (s + 2 * (ln (r0 + s - 2) - ln (r0 - 2))) (r0 + s) th ph.
Definition ray_p (s : R) : V4 := mkQ4 (-1) ((r0 + s) / (r0 + s - 2)) 0 0.
Lemma sch_at t r b f : 2 < r -> sin b <> 0 -> metric_defined schE (q4nth (mk4 t r b f)) /\ metric_meaning schE (q4nth (mk4 t r b f)) = kn_con 0 0 r b.
Proof. intros H1 H2. destruct is_kn_sch as (_ & _ & M). apply M; [unfold SigmaS; nra|unfold DeltaS; nra|exact H2]. Qed.
Lemma Ham_ray v s : 2 < c1 v -> sin (c2 v) <> 0 -> 2 < r0 + s ->
  Ham schE v (ray_p s) = / 2 * (- (c1 v / (c1 v - 2)) + (c1 v - 2) / c1 v * ((r0 + s) / (r0 + s - 2) * ((r0 + s) / (r0 + s - 2)))).
Proof.
  intros H1 H2 H3. destruct v as [t x b f]. cbn [c1 c2] in *. destruct (sch_at t x b f H1 H2) as [_ Em]. unfold Ham. change (mkQ4 t x b f) with (mk4 t x b f). rewrite Em.
  unfold kn_con, SigmaS, DeltaS, ray_p. cbv zeta. unfold quad, mv, q4map, dot; cbn [c0 c1 c2 c3]. set (y := (r0 + s) / (r0 + s - 2)). clearbody y. field. repeat split; try lra; try nra; exact H2.
Qed.
Lemma ray_vel s : 2 < r0 + s -> mv (metric_meaning schE (q4nth (ray_q s))) (ray_p s) = mkQ4 ((r0 + s) / (r0 + s - 2)) 1 0 0.
Proof.
  intros H. unfold ray_q. rewrite (proj2 (sch_at _ (r0 + s) th ph H Hth)). unfold kn_con, SigmaS, DeltaS, ray_p. cbv zeta. unfold mv, q4map, dot; cbn [c0 c1 c2 c3].
  apply Q4_eq; cbn [c0 c1 c2 c3]; field; repeat split; try lra; try nra; exact Hth.
Qed.
Lemma ray_hamilton s : 2 < r0 + s -> hamilton schE ray_q ray_p s.
Proof.
  intros H. unfold hamilton. rewrite ray_vel by exact H. set (c := Ham schE (ray_q s) (ray_p s)).
  assert (K : forall k x, k = 0%nat \/ k = 3%nat -> Ham schE (vupd (ray_q s) k x) (ray_p s) = c).
  { intros k x [-> | ->]; unfold c; rewrite !Ham_ray by (cbn; assumption); reflexivity. }
  apply q4_cases; (split; [cbn [q4nth ray_q c0 c1 c2 c3]|]).
  - auto_derive; [repeat split; lra|field; lra].
  - exists 0. split; [|cbn [q4nth ray_p c0 c1 c2 c3]; eapply D_eq; [apply D_const|ring]]. apply (D_ext (fun _ => c)); [intros x; symmetry; apply K; tauto|apply D_const].
  - auto_derive; [exact I|ring].
  - exists (/ 2 * (2 / ((r0 + s - 2) * (r0 + s - 2)) + 2 / ((r0 + s - 2) * (r0 + s - 2)))). split.
    + apply (is_derive_ext_loc (fun x => / 2 * (- (x / (x - 2)) + (x - 2) / x * ((r0 + s) / (r0 + s - 2) * ((r0 + s) / (r0 + s - 2)))))).
      * apply (filter_imp (fun x => 2 < x)); [|apply (open_gt 2); exact H]. intros x Hx. symmetry. apply (Ham_ray (vupd (ray_q s) 1 x)); assumption.
      * cbn [q4nth ray_q c1]. auto_derive; [repeat split; lra|field; lra].
    + cbn [q4nth ray_p c0 c1 c2 c3]. auto_derive; [lra|field; lra].
  - apply D_const.
  - exists 0. split; [|cbn [q4nth ray_p c0 c1 c2 c3]; eapply D_eq; [apply D_const|ring]].
    apply (is_derive_ext_loc (fun _ => c)); [|apply D_const].
    assert (C : continuous sin th) by (apply (ex_derive_continuous sin); auto_derive; exact I).
    apply (filter_imp (fun b => sin b <> 0)); [|exact (C _ (open_neq 0 (sin th) Hth))]. intros b Hb. unfold c. rewrite (Ham_ray (ray_q s)) by (cbn; assumption).
    rewrite (Ham_ray (vupd (ray_q s) 2 b)) by (cbn; assumption). reflexivity.
  - apply D_const.
  - exists 0. split; [|cbn [q4nth ray_p c0 c1 c2 c3]; eapply D_eq; [apply D_const|ring]]. apply (D_ext (fun _ => c)); [intros x; symmetry; apply K; tauto|apply D_const].
Qed.
Lemma ray_geodesic_on T : geodesic_on schE ray_q ray_p T.
Proof.
  intros t Ht. split; [apply (sch_at _ (r0 + t) th ph); [lra|exact Hth]|]. apply (filter_imp (fun s => 2 - r0 < s)); [|apply (open_gt (2 - r0)); lra].
  intros s Hs. apply ray_hamilton. lra.
Qed.
Lemma ray_P : P4 schE (mkQ4 0 r0 th ph) (r0 / (r0 - 2)) 0 0 false = Ok (ray_p 0).
Proof.
  destruct (sch_at 0 r0 th ph Hr0 Hth) as [Md Mm]. unfold mk4 in *. unfold P4. rewrite (metric_at_Ok _ _ Md). cbn [bindR]. rewrite Mm.
  unfold P_of_guu. cbv zeta. unfold kn_con, mnth, SigmaS, DeltaS. cbv zeta. cbn [q4nth c0 c1 c2 c3 b2R].
  set (A := - (((r0 * r0 + 0 * 0) * (r0 * r0 + 0 * 0) - 0 * 0 * (r0 * r0 - 2 * r0 + 0 * 0 + 0 * 0) * (sin th * sin th)) / ((r0 * r0 + 0 * 0 * (cos th * cos th)) * (r0 * r0 - 2 * r0 + 0 * 0 + 0 * 0)))).
  assert (HA : A = - (r0 / (r0 - 2))) by (unfold A; field; repeat split; nra). clearbody A. subst A.
  match goal with |- context [np_sqrt ?d] => replace d with ((2 * (r0 / (r0 - 2))) * (2 * (r0 / (r0 - 2)))) by (field; repeat split; try nra; exact Hth) end.
  assert (P : 0 < r0 / (r0 - 2)) by (apply Rdiv_lt_0_compat; lra).
  unfold np_sqrt. destruct (Rle_dec _ _) as [_|F]; [|exfalso; apply F; nra]. rewrite sqrt_square by lra. cbn [bindR]. unfold np_div. destruct (Req_EM_T _ _) as [F|_]; [lra|]. cbn [bindR].
  unfold ray_p. rewrite Rplus_0_r. apply f_equal. apply f_equal with (f := fun x => mkQ4 x (r0 / (r0 - 2)) 0 0). field. repeat split; try nra; exact Hth.
Qed.
Lemma radial_light_sec order w n T : In order [2; 4; 6; 8]%nat -> n = 2%nat \/ (order = 4 /\ n = 4)%nat -> 0 < T ->
  exists C N0, (0 < N0)%nat /\ forall N rtol atol suppress, (N0 <= N)%nat ->
  exists o, mk_nulllike (MName "Schwarzschild") [] (r0, th, ph) (r0 / (r0 - 2), 0, 0) false (mkkw N (T / INR N) rtol atol order w suppress) = Ok o /\
  length (snd (geo_trajectory o)) = N /\
  forall j row, nth_error (snd (geo_trajectory o)) j = Some row ->
    Rabs (c1 (fst row) - (r0 + INR (S j) * (T / INR N))) <= C * (T / INR N) ^ n /\ c2 (fst row) = th /\ c3 (fst row) = ph /\
    Rabs (c0 (fst row) - (INR (S j) * (T / INR N) + 2 * (ln (r0 + INR (S j) * (T / INR N) - 2) - ln (r0 - 2)))) <= C * (T / INR N) ^ n.
Proof.
  intros Hord Hn HT.
  assert (Hf : exists f, integrator_of order (metricfun_of schE) w = Ok f).
  { cbn in Hord. destruct Hord as [<- |[<- |[<- |[<- |[]]]]]; eexists; reflexivity. }
  destruct Hf as [f Hf]. destruct builtin_well_formed as [[Wf Sy] _].
  destruct (trajectory_converges order schE w f n ray_q ray_p T Hf Hn Wf Sy HT (ray_geodesic_on T)) as (C & N0 & HN0 & H).
  exists C, N0. split; [exact HN0|]. intros N rtol atol suppress HN. destruct (H N false rtol atol suppress HN) as (rows & E & Hlen & Hrow).
  assert (MK : mk_geodesic (MName "Schwarzschild") [] (r0, th, ph) (r0 / (r0 - 2), 0, 0) false false (mkkw N (T / INR N) rtol atol order w suppress)
    = Ok (mkgeo (ray_q 0) (ray_p 0) (seq 0 N, rows))).
  { unfold mk_geodesic. cbn [resolve_metric String.eqb Ascii.eqb Bool.eqb bindR sch_call]. rewrite ray_P. cbn [bindR resolve_params].
    replace (mkQ4 0 r0 th ph) with (ray_q 0) by (unfold ray_q; rewrite !Rplus_0_r; apply Q4_eq; cbn [c0 c1 c2 c3]; ring).  rewrite E. reflexivity. }
  eexists. split; [exact MK|]. assert (Rad := radial_schwarzschild _ _ _ _ _ _ _ _ _ MK). cbn [geo_trajectory snd] in *. split; [exact Hlen|].
  intros j row Hj. destruct (Rad row (nth_error_In _ _ Hj)) as [[Q2 Q3] _]. assert (B0 := Hrow j row Hj 0%nat ltac:(lia)). assert (B1 := Hrow j row Hj 1%nat ltac:(lia)).
  cbn [q4nth ray_q c0 c1 c2 c3] in B0, B1. tauto.
Qed.
End Ray.
Theorem radial_light r0 th ph order w n T : 2 < r0 -> sin th <> 0 -> In order [2; 4; 6; 8]%nat -> n = 2%nat \/ (order = 4 /\ n = 4)%nat -> 0 < T ->
  exists C N0, (0 < N0)%nat /\ forall N rtol atol suppress, (N0 <= N)%nat ->
  exists o, mk_nulllike (MName "Schwarzschild") [] (r0, th, ph) (r0 / (r0 - 2), 0, 0) false (mkkw N (T / INR N) rtol atol order w suppress) = Ok o /\
  length (snd (geo_trajectory o)) = N /\
  forall j row, nth_error (snd (geo_trajectory o)) j = Some row ->
    Rabs (c1 (fst row) - (r0 + INR (S j) * (T / INR N))) <= C * (T / INR N) ^ n /\ c2 (fst row) = th /\ c3 (fst row) = ph /\
    Rabs (c0 (fst row) - (INR (S j) * (T / INR N) + 2 * (ln (r0 + INR (S j) * (T / INR N) - 2) - ln (r0 - 2)))) <= C * (T / INR N) ^ n.
Proof. intros H1 H2. exact (radial_light_sec r0 th ph H1 H2 order w n T). Qed.
