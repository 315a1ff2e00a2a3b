(** Circular equatorial orbits around the built-in black holes. *)
From Coq Require Import String Reals List ZArith Lra Lia Bool.
From Coquelicot Require Import Coquelicot.
From Verif Require Import Base Calc DualModel DualSpec DualProofs DualDiff GeoUtilsModel GeoUtilsSpec GeoUtilsProofs GeodesicModel GeodesicProofs
  FantasyModel FantasyProofs FantasyProofs2 FantasyProofs3 FantasyHam FantasySymp ProgCont WordSeries WordOrder FantasyOrder FantasyOrder2 FantasyOrder3 FantasyOrder4 FantasyGlobal FantasyGlobal2 FantasyGlobal3 FantasyShell FantasySymm4 FantasySymm5 FantasyPlane.
Import ListNotations.
Open Scope R_scope.

(** the program g evaluates to the contravariant Kerr-Newman metric of spin a and charge Q *)
Definition is_kn (g : metricP) (a Q : R) : Prop := well_formed g /\ symmetric_program g /\
  forall t r th ph, SigmaS r th a <> 0 -> DeltaS r a Q <> 0 -> sin th <> 0 ->
    metric_defined g (q4nth (mk4 t r th ph)) /\ metric_meaning g (q4nth (mk4 t r th ph)) = kn_con a Q r th.
Lemma is_kn_sch : is_kn schE 0 0.
Proof.
  destruct builtin_well_formed as [[W S] _]. split; [exact W|]. split; [exact S|]. intros t r th ph HS HD Hs.
  assert (r <> 0) by (intros ->; apply HS; unfold SigmaS; ring). assert (r <> 2) by (intros ->; apply HD; unfold DeltaS; ring).
  split; [apply sch_defined|apply sch_meaning]; assumption.
Qed.
Lemma is_kn_kerr a : is_kn (kerrE a) a 0.
Proof.
  destruct builtin_well_formed as [_ [W _]]. destruct (W a) as [W1 S1]. split; [exact W1|]. split; [exact S1|]. intros. split; [apply kerr_defined|apply kerr_meaning]; assumption.
Qed.
Lemma is_kn_kn a Q : is_kn (kerrnewmanE a Q) a Q.
Proof.
  destruct builtin_well_formed as [_ [_ W]]. destruct (W a Q) as [W1 S1]. split; [exact W1|]. split; [exact S1|]. intros. split; [apply kn_defined|apply kn_meaning]; assumption.
Qed.

Section Orbit.
Variables (a Q u k : R).
(** radius, with u^2 = r - Q^2 (u > 0: prograde, u < 0: retrograde), energy, angular momentum, dt/dlambda, dphi/dlambda; k fixes the scale of the parameter *)
Definition c_r : R := u * u + Q * Q.
Definition c_E : R := k * (c_r * c_r - 2 * c_r + Q * Q + a * u).
Definition c_L : R := k * (u * (c_r * c_r + a * a) - a * (2 * c_r - Q * Q)).
Definition c_td : R := k * (c_r * c_r + a * u).
Definition c_pd : R := k * u.
Definition circ_q (s : R) : V4 := mkQ4 (c_td * s) c_r (PI / 2) (c_pd * s).
Definition circ_p (s : R) : V4 := mkQ4 (- c_E) 0 0 c_L.
(** k^2 r^2 (r^2 - 3 r + 2 Q^2 + 2 a u): minus the norm of the 4-momentum *)
Definition c_norm : R := k * k * (c_r * c_r) * (c_r * c_r - 3 * c_r + 2 * (Q * Q) + 2 * a * u).
Definition circ_ok : Prop := 0 < c_r /\ DeltaS c_r a Q <> 0.
Hypothesis Hok : circ_ok.

Definition quadH (x th E L : R) : R := / 2 * (mnth (kn_con a Q x th) 0 0 * (E * E) - 2 * mnth (kn_con a Q x th) 0 3 * (E * L) + mnth (kn_con a Q x th) 3 3 * (L * L)).
Variable g : metricP.
Hypothesis Hg : is_kn g a Q.
Lemma Sigma_pos x th : 0 < x -> SigmaS x th a <> 0.
Proof. intros H. unfold SigmaS. assert (0 <= (a * cos th) * (a * cos th)) by nra. assert (0 < x * x) by nra. nra. Qed.
Lemma Ham_kn v E L : 0 < c1 v -> DeltaS (c1 v) a Q <> 0 -> sin (c2 v) <> 0 -> Ham g v (mkQ4 (- E) 0 0 L) = quadH (c1 v) (c2 v) E L.
Proof.
  intros H1 H2 H3. destruct v as [t x th ph]. cbn [c1 c2] in *. destruct Hg as (_ & _ & M). destruct (M t x th ph (Sigma_pos x th H1) H2 H3) as [_ Em].
  unfold Ham. change (mkQ4 t x th ph) with (mk4 t x th ph). rewrite Em. unfold quadH. unfold kn_con. cbv zeta. unfold quad, mv, mnth, q4map, dot; cbn [q4nth c0 c1 c2 c3]. unfold Rdiv. ring.
Qed.
Lemma quadH_r : is_derive (fun x => quadH x (PI / 2) c_E c_L) c_r 0.
Proof.
  unfold quadH, kn_con, mnth, SigmaS, DeltaS. cbv zeta. cbn [q4nth c0 c1 c2 c3]. rewrite sin_PI2, cos_PI2.
  destruct Hok as (H2 & H3). unfold DeltaS in H3. unfold c_E, c_L. 
  assert (Hr : c_r <> 0) by lra. auto_derive.
  - repeat split; repeat apply Rmult_integral_contrapositive_currified; try nra; try assumption.
  - unfold c_r in *. field. repeat split; try assumption; try lra; try nra.
Qed.
Lemma quadH_th : is_derive (fun th => quadH c_r th c_E c_L) (PI / 2) 0.
Proof.
  destruct Hok as (H2 & H3). unfold quadH, kn_con, mnth, SigmaS. cbv zeta. cbn [q4nth c0 c1 c2 c3].
  generalize (DeltaS c_r a Q), H3. intros D HD. generalize c_E, c_L. intros E L. assert (Hr : c_r <> 0) by lra. auto_derive.
  - rewrite sin_PI2, cos_PI2. repeat split; repeat apply Rmult_integral_contrapositive_currified; try nra; try assumption.
  - rewrite sin_PI2, cos_PI2. field. split; assumption.
Qed.
Lemma near_r : locally c_r (fun x => 0 < x /\ DeltaS x a Q <> 0).
Proof.
  destruct Hok as (H2 & H3). apply filter_and.
  - apply (open_gt 0). exact H2.
  - assert (C : continuous (fun x => DeltaS x a Q) c_r).
    { apply (ex_derive_continuous (fun x => DeltaS x a Q)). unfold DeltaS. auto_derive. exact I. }
    exact (C _ (open_neq 0 (DeltaS c_r a Q) H3)).
Qed.
Lemma near_th : locally (PI / 2) (fun th => sin th <> 0).
Proof.
  assert (C : continuous sin (PI / 2)) by (apply (ex_derive_continuous sin); auto_derive; exact I).
  apply (C _ (open_neq 0 (sin (PI / 2)) ltac:(rewrite sin_PI2; lra))).
Qed.
Lemma circ_meaning s : metric_defined g (q4nth (circ_q s)) /\ metric_meaning g (q4nth (circ_q s)) = kn_con a Q c_r (PI / 2).
Proof.
  destruct Hg as (_ & _ & M). destruct Hok as (H2 & H3). apply (M (c_td * s) c_r (PI / 2) (c_pd * s)); [apply Sigma_pos; exact H2|exact H3|rewrite sin_PI2; lra].
Qed.
Lemma circ_vel s : mv (metric_meaning g (q4nth (circ_q s))) (circ_p s) = mkQ4 c_td 0 0 c_pd.
Proof.
  rewrite (proj2 (circ_meaning s)). unfold kn_con, circ_p, SigmaS, DeltaS. cbv zeta. rewrite sin_PI2, cos_PI2. unfold mv, q4map, dot; cbn [c0 c1 c2 c3].
  destruct Hok as (H2 & H3). unfold DeltaS in H3. unfold c_E, c_L, c_td, c_pd. 
  assert (Hr : c_r <> 0) by lra. unfold c_r in *. apply Q4_eq; cbn [c0 c1 c2 c3]; try ring; field; repeat split; try assumption; try lra; nra.
Qed.
Lemma circ_hamilton s : hamilton g circ_q circ_p s.
Proof.
  destruct Hok as (H2 & H3). assert (S2 : sin (PI / 2) <> 0) by (rewrite sin_PI2; lra).
  unfold hamilton. rewrite circ_vel. apply q4_cases; (split; [cbn [q4nth circ_q c0 c1 c2 c3]|exists 0; split; [|cbn [q4nth circ_p c0 c1 c2 c3]; eapply D_eq; [apply D_const|ring]]]).
  - auto_derive; [exact I|ring].
  - apply (D_ext (fun _ => quadH c_r (PI / 2) c_E c_L)); [|apply D_const]. intros x. symmetry. apply (Ham_kn (vupd (circ_q s) 0 x)); assumption.
  - apply D_const.
  - apply (is_derive_ext_loc (fun x => quadH x (PI / 2) c_E c_L)); [|exact quadH_r]. apply (filter_imp _ _) with (2 := near_r). intros x [A B]. symmetry. apply (Ham_kn (vupd (circ_q s) 1 x)); assumption.
  - apply D_const.
  - apply (is_derive_ext_loc (fun th => quadH c_r th c_E c_L)); [|exact quadH_th]. apply (filter_imp _ _) with (2 := near_th). intros x A. symmetry. apply (Ham_kn (vupd (circ_q s) 2 x)); assumption.
  - auto_derive; [exact I|ring].
  - apply (D_ext (fun _ => quadH c_r (PI / 2) c_E c_L)); [|apply D_const]. intros x. symmetry. apply (Ham_kn (vupd (circ_q s) 3 x)); assumption.
Qed.
Lemma circ_geodesic_on T : geodesic_on g circ_q circ_p T.
Proof. intros t _. split; [apply circ_meaning|]. exists (mkposreal 1 Rlt_0_1). intros s _. apply circ_hamilton. Qed.
(** the initial 4-momentum *)
Lemma circ_P tl : 0 <= c_td -> c_norm = b2R tl -> P4 g (mkQ4 0 c_r (PI / 2) 0) 0 0 c_L tl = Ok (circ_p 0).
Proof.
  intros Hf Hno. assert (M0 := circ_meaning 0). unfold circ_q in M0. rewrite !Rmult_0_r in M0. destruct M0 as [Md Mm].
  unfold P4. rewrite (metric_at_Ok _ _ Md). cbn [bindR]. rewrite Mm.
  destruct Hok as (H2 & H3). assert (Hr : c_r <> 0) by lra.
  set (A := mnth (kn_con a Q c_r (PI / 2)) 0 0). set (B := mnth (kn_con a Q c_r (PI / 2)) 0 3). set (G := mnth (kn_con a Q c_r (PI / 2)) 3 3).
  assert (V := f_equal c0 (circ_vel 0)). unfold circ_q in V. rewrite !Rmult_0_r, Mm in V. unfold circ_p, mv, q4map, dot in V; cbn [c0 c1 c2 c3] in V.
  change (A * - c_E + 0 * 0 + 0 * 0 + B * c_L = c_td) in V.
  assert (Sh : A * (c_E * c_E) - 2 * B * (c_E * c_L) + G * (c_L * c_L) = - b2R tl).
  { rewrite <- Hno. unfold A, B, G, kn_con, SigmaS, DeltaS, mnth. cbv zeta. cbn [q4nth c0 c1 c2 c3]. rewrite sin_PI2, cos_PI2. unfold DeltaS in H3.
    unfold c_E, c_L, c_norm. clear A B G V Md Mm Hno. unfold c_r in *. field. repeat split; try assumption; try lra; nra. }
  unfold P_of_guu. cbv zeta. fold A B G.
  replace (2 * B * c_L * (2 * B * c_L) - 4 * A * (mnth (kn_con a Q c_r (PI / 2)) 1 1 * 0 * 0 + mnth (kn_con a Q c_r (PI / 2)) 2 2 * 0 * 0 + G * c_L * c_L + b2R tl)) with ((2 * c_td) * (2 * c_td)).
  2: { rewrite <- V. transitivity (4 * (A * - c_E + B * c_L) * (A * - c_E + B * c_L)); [ring|]. 
       transitivity (2 * B * c_L * (2 * B * c_L) - 4 * A * (G * c_L * c_L - (A * (c_E * c_E) - 2 * B * (c_E * c_L) + G * (c_L * c_L)))); [ring|]. rewrite Sh. ring. }
  assert (Td : 0 <= 2 * c_td) by lra.
  unfold np_sqrt. destruct (Rle_dec _ _) as [_|F]; [|exfalso; apply F; nra]. rewrite sqrt_square by exact Td. cbn [bindR].
  assert (HA : A <> 0).
  { unfold A, kn_con, mnth, SigmaS. cbv zeta. cbn [q4nth c0 c1 c2 c3]. rewrite sin_PI2, cos_PI2.
    apply Ropp_neq_0_compat. apply Rmult_integral_contrapositive_currified.
    - assert (QQ : Q * Q <= c_r) by (unfold c_r; nra). assert (0 <= a * a) by nra. assert (0 < c_r * c_r) by nra. assert (0 < (c_r * c_r) * (c_r * c_r)) by (apply Rmult_lt_0_compat; assumption).
      assert (0 <= a * a * (2 * c_r - Q * Q)) by (apply Rmult_le_pos; lra). assert (0 <= a * a * (c_r * c_r)) by (apply Rmult_le_pos; lra).
      replace ((c_r * c_r + a * a) * (c_r * c_r + a * a) - a * a * DeltaS c_r a Q * (1 * 1)) with ((c_r * c_r) * (c_r * c_r) + a * a * (c_r * c_r) + a * a * (2 * c_r - Q * Q)) by (unfold DeltaS; ring). lra.
    - apply Rinv_neq_0_compat. apply Rmult_integral_contrapositive_currified; [nra|exact H3]. }
  unfold np_div. destruct (Req_EM_T (2 * A) 0) as [F|_]; [exfalso; apply HA; lra|]. cbn [bindR]. unfold circ_p. apply f_equal. apply f_equal with (f := fun x => mkQ4 x 0 0 c_L).
  rewrite <- V. field. exact HA.
Qed.
End Orbit.

(** the metric argument and parameters of Timelike that name a black hole of spin a and charge Q *)
Definition hole (m : metric_arg) (prms : list R) (a Q : R) : Prop :=
  (m = MName "Schwarzschild" /\ a = 0 /\ Q = 0) \/ (m = MName "Kerr" /\ prms = [a] /\ Q = 0) \/ (m = MName "KerrNewman" /\ prms = [a; Q]).
Lemma hole_kn m prms a Q : hole m prms a Q -> exists call g, resolve_metric m = Ok call /\ call prms = Ok g /\ call (resolve_params m prms) = Ok g /\ is_kn g a Q.
Proof.
  intros [(-> & -> & ->)|[(-> & -> & ->)|(-> & ->)]].
  - exists sch_call, schE. repeat (split; [reflexivity|]). exact is_kn_sch.
  - exists kerr_call, (kerrE a). repeat (split; [reflexivity|]). apply is_kn_kerr.
  - exists kerrnewman_call, (kerrnewmanE a Q). repeat (split; [reflexivity|]). apply is_kn_kn.
Qed.
(** Releasing a particle (tl = true) or a photon (tl = false) at radius r = u^2 + Q^2 in the equatorial plane with azimuthal momentum [c_L] gives rows that follow the circle. *)
Theorem circular_orbit m prms a Q u k tl order w n T :
  hole m prms a Q -> circ_ok a Q u -> 0 <= c_td a Q u k -> c_norm a Q u k = b2R tl ->
  In order [2; 4; 6; 8]%nat -> n = 2%nat \/ (order = 4 /\ n = 4)%nat -> 0 < T ->
  exists C N0, (0 < N0)%nat /\ forall N rtol atol suppress, (N0 <= N)%nat ->
  exists o, mk_geodesic m prms (c_r Q u, PI / 2, 0) (0, 0, c_L a Q u k) tl false (mkkw N (T / INR N) rtol atol order w suppress) = Ok o /\
  geo_momentum o = mkQ4 (- c_E a Q u k) 0 0 (c_L a Q u k) /\ length (snd (geo_trajectory o)) = N /\
  forall j row, nth_error (snd (geo_trajectory o)) j = Some row ->
    Rabs (c0 (fst row) - c_td a Q u k * (INR (S j) * (T / INR N))) <= C * (T / INR N) ^ n /\ Rabs (c1 (fst row) - c_r Q u) <= C * (T / INR N) ^ n /\
    c2 (fst row) = PI / 2 /\ Rabs (c3 (fst row) - c_pd u k * (INR (S j) * (T / INR N))) <= C * (T / INR N) ^ n /\
    Rabs (c0 (snd row) - - c_E a Q u k) <= C * (T / INR N) ^ n /\ Rabs (c1 (snd row)) <= C * (T / INR N) ^ n /\ c2 (snd row) = 0 /\
    Rabs (c3 (snd row) - c_L a Q u k) <= C * (T / INR N) ^ n.
Proof.
  intros Hh Hok Hfut Hno Hord Hn HT. destruct (hole_kn _ _ _ _ Hh) as (call & g & R1 & R2 & R3 & Hg).
  assert (Hnm : exists s, m = MName s /\ In s ["Schwarzschild"; "Kerr"; "KerrNewman"]%string).
  { destruct Hh as [(-> & _)|[(-> & _)|(-> & _)]]; eexists; (split; [reflexivity|]); cbn; tauto. }
  assert (Hf : exists f, integrator_of order (metricfun_of g) w = Ok f).
  { cbn in Hord. destruct Hord as [<- |[<- |[<- |[<- |[]]]]]; eexists; reflexivity. }
  destruct Hf as [f Hf]. destruct (trajectory_converges order g w f n (circ_q a Q u k) (circ_p a Q u k) T Hf Hn (proj1 Hg) (proj1 (proj2 Hg)) HT (circ_geodesic_on a Q u k Hok g Hg T)) as (C & N0 & HN0 & H).
  exists C, N0. split; [exact HN0|]. intros N rtol atol suppress HN. destruct (H N tl rtol atol suppress HN) as (rows & E & Hlen & Hrow).
  assert (MK : mk_geodesic m prms (c_r Q u, PI / 2, 0) (0, 0, c_L a Q u k) tl false (mkkw N (T / INR N) rtol atol order w suppress)
    = Ok (mkgeo (circ_q a Q u k 0) (circ_p a Q u k 0) (seq 0 N, rows))).
  { unfold mk_geodesic. rewrite R1. cbn [bindR]. rewrite R2. cbn [bindR]. rewrite (circ_P a Q u k Hok g Hg tl Hfut Hno). cbn [bindR]. rewrite R3. cbn [bindR].
    replace (mkQ4 0 (c_r Q u) (PI / 2) 0) with (circ_q a Q u k 0) by (unfold circ_q; rewrite !Rmult_0_r; reflexivity). rewrite E. reflexivity. }
  eexists. split; [exact MK|]. destruct Hnm as (sn & -> & Hin). destruct (equator_named _ _ _ _ _ _ _ _ _ _ Hin MK) as (_ & _ & Heq).
  cbn [geo_momentum geo_trajectory snd] in *. split; [reflexivity|]. split; [exact Hlen|].
  intros j row Hj. destruct (Heq row (nth_error_In _ _ Hj)) as [Q2 P2]. assert (B0 := Hrow j row Hj 0%nat ltac:(lia)). assert (B1 := Hrow j row Hj 1%nat ltac:(lia)). assert (B3 := Hrow j row Hj 3%nat ltac:(lia)).
  cbn [q4nth circ_q circ_p c0 c1 c2 c3] in B0, B1, B3. rewrite Rminus_0_r in B1. tauto.
Qed.
(** particles in Schwarzschild: every r > 3 has the orbit with angular momentum r / sqrt (r - 3) *)
Lemma sch_data r : 3 < r -> let u := sqrt r in let k := / (r * sqrt (r * (r - 3))) in
  c_r 0 u = r /\ c_L 0 0 u k = r / sqrt (r - 3) /\ c_E 0 0 u k = (r - 2) / sqrt (r * (r - 3)) /\ circ_ok 0 0 u /\ 0 <= c_td 0 0 u k /\ c_norm 0 0 u k = 1.
Proof.
  intros Hr u k. assert (Su : u * u = r) by (apply sqrt_sqrt; lra). assert (Cr : c_r 0 u = r) by (unfold c_r; rewrite Su; ring).
  assert (P : 0 < r * (r - 3)) by nra. assert (Sw : sqrt (r * (r - 3)) * sqrt (r * (r - 3)) = r * (r - 3)) by (apply sqrt_sqrt; lra). assert (W := sqrt_lt_R0 _ P).
  assert (W3 : 0 < sqrt (r - 3)) by (apply sqrt_lt_R0; lra). assert (Hu : 0 < u) by (apply sqrt_lt_R0; lra).
  split; [exact Cr|]. split; [|split; [|split; [|split]]].
  - unfold c_L. rewrite Cr. unfold k. rewrite sqrt_mult by lra. fold u. field. repeat split; lra.
  - unfold c_E. rewrite Cr. unfold k. field. split; lra.
  - split; [rewrite Cr; lra|]. rewrite Cr. unfold DeltaS. nra.
  - unfold c_td. rewrite Cr. unfold k. apply Rmult_le_pos; [|nra]. left. apply Rinv_0_lt_compat. nra.
  - unfold c_norm. rewrite Cr. unfold k. transitivity (r * (r - 3) * / (sqrt (r * (r - 3)) * sqrt (r * (r - 3)))); [field; split; lra|]. rewrite Sw. apply Rinv_r. lra.
Qed.
Theorem circular_schwarzschild r order w n T : 3 < r -> In order [2; 4; 6; 8]%nat -> n = 2%nat \/ (order = 4 /\ n = 4)%nat -> 0 < T ->
  exists C N0, (0 < N0)%nat /\ forall N rtol atol suppress, (N0 <= N)%nat ->
  exists o, mk_timelike (MName "Schwarzschild") [] (r, PI / 2, 0) (0, 0, r / sqrt (r - 3)) false (mkkw N (T / INR N) rtol atol order w suppress) = Ok o /\
  length (snd (geo_trajectory o)) = N /\
  forall row, In row (snd (geo_trajectory o)) -> Rabs (c1 (fst row) - r) <= C * (T / INR N) ^ n /\ c2 (fst row) = PI / 2.
Proof.
  intros Hr Ho Hn HT. destruct (sch_data r Hr) as (E1 & E2 & _ & Ok1 & Td & No).
  destruct (circular_orbit (MName "Schwarzschild") [] 0 0 (sqrt r) (/ (r * sqrt (r * (r - 3)))) true order w n T ltac:(left; auto) Ok1 Td No Ho Hn HT) as (C & N0 & HN0 & H).
  exists C, N0. split; [exact HN0|]. intros N rtol atol suppress HN. destruct (H N rtol atol suppress HN) as (o & Eo & _ & L & Hrow). rewrite E1, E2 in Eo. exists o. split; [exact Eo|]. split; [exact L|].
  intros row Hin. apply In_nth_error in Hin. destruct Hin as [j Hj]. destruct (Hrow j row Hj) as (_ & B & B2 & _). rewrite E1 in B. split; assumption.
Qed.
(** light in Schwarzschild: the photon sphere *)
Theorem photon_sphere L order w n T : 0 < L -> In order [2; 4; 6; 8]%nat -> n = 2%nat \/ (order = 4 /\ n = 4)%nat -> 0 < T ->
  exists C N0, (0 < N0)%nat /\ forall N rtol atol suppress, (N0 <= N)%nat ->
  exists o, mk_nulllike (MName "Schwarzschild") [] (3, PI / 2, 0) (0, 0, L) false (mkkw N (T / INR N) rtol atol order w suppress) = Ok o /\
  length (snd (geo_trajectory o)) = N /\
  forall row, In row (snd (geo_trajectory o)) -> Rabs (c1 (fst row) - 3) <= C * (T / INR N) ^ n /\ c2 (fst row) = PI / 2.
Proof.
  intros HL Ho Hn HT. assert (S3 : sqrt 3 * sqrt 3 = 3) by (apply sqrt_sqrt; lra). assert (Hs : 0 < sqrt 3) by (apply sqrt_lt_R0; lra). assert (Cr : c_r 0 (sqrt 3) = 3) by (unfold c_r; rewrite S3; ring).
  set (k := L / (9 * sqrt 3)). assert (EL : c_L 0 0 (sqrt 3) k = L) by (unfold c_L; rewrite Cr; unfold k; field; lra). assert (Hk : 0 < k) by (apply Rdiv_lt_0_compat; lra).
  assert (H1 : circ_ok 0 0 (sqrt 3)) by (split; rewrite Cr; [|unfold DeltaS]; lra). assert (H2 : 0 <= c_td 0 0 (sqrt 3) k) by (unfold c_td; rewrite Cr; nra). assert (H3 : c_norm 0 0 (sqrt 3) k = b2R false) by (unfold c_norm, b2R; rewrite Cr; ring).
  destruct (circular_orbit (MName "Schwarzschild") [] 0 0 (sqrt 3) k false order w n T ltac:(left; auto) H1 H2 H3 Ho Hn HT) as (C & N0 & HN0 & H).
  exists C, N0. split; [exact HN0|]. intros N rtol atol suppress HN. destruct (H N rtol atol suppress HN) as (o & Eo & _ & Ln & Hrow). rewrite Cr, EL in Eo. exists o. split; [exact Eo|]. split; [exact Ln|].
  intros row Hin. apply In_nth_error in Hin. destruct Hin as [j Hj]. destruct (Hrow j row Hj) as (_ & B & B2 & _). rewrite Cr in B. split; assumption.
Qed.
Lemma circ_exact a Q u k g T : circ_ok a Q u -> is_kn g a Q -> geodesic_on g (circ_q a Q u k) (circ_p a Q u k) T.
Proof. intros H1 H2. exact (circ_geodesic_on a Q u k H1 g H2 T). Qed.
Lemma named_is_kn : is_kn schE 0 0 /\ (forall a, is_kn (kerrE a) a 0) /\ (forall a Q, is_kn (kerrnewmanE a Q) a Q).
Proof. split; [exact is_kn_sch|]. split; [exact is_kn_kerr|exact is_kn_kn]. Qed.
