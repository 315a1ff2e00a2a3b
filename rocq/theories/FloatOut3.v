(** C122: Geodesic with return_cartesian=True (the default) in floating point. *)
From Coq Require Import String Reals List ZArith Lra Lia Bool.
From Coquelicot Require Import Coquelicot.
From Verif Require Import Base Calc DualModel DualSpec DualProofs DualDiff GeoUtilsModel GeoUtilsSpec GeoUtilsProofs GeodesicModel GeodesicProofs FantasyModel FantasyProofs FantasyProofs2 FantasyProofs3 FantasyHam FantasySymp FantasyOrder FantasyOrder2 FantasyOrder3 FantasyOrder4 FantasyGlobal FantasyGlobal2 FantasyGlobal3 FantasyCircular ProgCont CoordModel FloatModel FloatExact FloatTrack FloatGlobal FloatTraj FloatIEEE FloatMain FloatCoordModel FloatCoordMain.
From Verif Require Import FloatOut FloatOut2.
Import ListNotations.
Open Scope R_scope.

(** a continuous function is bounded on an interval *)
Lemma bounded_on (f : R -> R) T : 0 <= T -> (forall t, 0 <= t <= T -> continuous f t) -> exists M, 0 <= M /\ forall t, 0 <= t <= T -> Rabs (f t) <= M.
Proof.
  intros HT H. destruct (continuity_ab_maj (fun t => Rabs (f t)) 0 T HT) as (x & Hx & _).
  { intros t Ht. apply (continuity_pt_comp f Rabs); [apply continuity_pt_filterlim, H, Ht|apply Rcontinuity_abs]. }
  exists (Rabs (f x)). split; [apply Rabs_pos|exact Hx].
Qed.
Lemma bounded4 (q : R -> V4) T : 0 <= T -> (forall i, (i < 4)%nat -> forall t, 0 <= t <= T -> continuous (fun t => q4nth (q t) i) t) -> exists M, 0 <= M /\ forall t, 0 <= t <= T -> close4 M (q t) (mkQ4 0 0 0 0).
Proof.
  intros HT H. destruct (bounded_on _ T HT (H 0%nat ltac:(lia))) as (a & Pa & Ha). destruct (bounded_on _ T HT (H 1%nat ltac:(lia))) as (b & Pb & Hb). destruct (bounded_on _ T HT (H 2%nat ltac:(lia))) as (c & Pc & Hc). destruct (bounded_on _ T HT (H 3%nat ltac:(lia))) as (e & Pe & He).
  exists (a + b + c + e). split; [lra|]. intros t Ht. specialize (Ha t Ht). specialize (Hb t Ht). specialize (Hc t Ht). specialize (He t Ht). unfold close4, close. cbn [c0 c1 c2 c3]. rewrite !Rminus_0_r. cbn [q4nth] in *. repeat split; lra.
Qed.
Lemma geodesic_bounded g q p T : 0 <= T -> geodesic_on g q p T -> exists M, 0 <= M /\ forall t, 0 <= t <= T -> close4 M (q t) (mkQ4 0 0 0 0).
Proof.
  intros HT H. apply bounded4; [exact HT|]. intros i Hi t Ht. destruct (H t Ht) as [_ K]. apply locally_singleton in K. destruct (K i Hi) as [D _]. exact (D_continuous _ _ _ D).
Qed.
Lemma vclose4 e v w : vclose e v w <-> close4 e v w.
Proof.
  split.
  - intros H. split; [apply (H 0%nat); lia|]. split; [apply (H 1%nat); lia|]. split; [apply (H 2%nat); lia|apply (H 3%nat); lia].
  - intros (H0 & H1 & H2 & H3) i Hi. do 4 (destruct i as [|i]; [assumption|]). lia.
Qed.
(** geodesic.py:236-255: the rows of the two modes *)
Lemma trajectory_modes A g q p N h order w : trajectoryA A g q p true N h order w =
  let* rows := trajectoryA A g q p false N h order w in seqR (fun r : row => let* x := to_cartesianA A (fst r) in Ok (x, snd r)) rows.
Proof. unfold trajectoryA. destruct (integrator_ofA A order g w) as [f|]; [|reflexivity]. cbn [bindR]. destruct (statesA (f h) N _) as [l|]; [|reflexivity]. cbn [bindR]. destruct l; reflexivity. Qed.
Lemma geodesic_modes A m prms pos mom tl N h order w : geodesicA A m prms pos mom tl true N h order w =
  let* pr := geodesicA A m prms pos mom tl false N h order w in let* rows := seqR (fun r : row => let* x := to_cartesianA A (fst r) in Ok (x, snd r)) (snd pr) in Ok (fst pr, rows).
Proof.
  unfold geodesicA. destruct (resolve_metric m) as [call|]; [|reflexivity]. cbn [bindR]. destruct pos as [[x1 x2] x3], mom as [[u1 u2] u3]. destruct (call prms) as [gP|]; [|reflexivity]. cbn [bindR].
  destruct (P4A A gP _ u1 u2 u3 tl) as [P|]; [|reflexivity]. cbn [bindR]. destruct (call (resolve_params m prms)) as [gI|]; [|reflexivity]. cbn [bindR]. rewrite trajectory_modes. destruct (trajectoryA A gI _ P false N h order w); reflexivity.
Qed.
Lemma seqR_rows A rows (X : nat -> V4) e C : (forall q q', close4 e q q' -> (exists k, q' = X k) -> exists x, to_cartesianA A q = Ok x /\ close4 C x (to_cartesian q')) ->
  forall s, (forall k row, nth_error rows k = Some row -> close4 e (fst row) (X (s + k)%nat)) ->
  exists rows', seqR (fun r : row => let* x := to_cartesianA A (fst r) in Ok (x, snd r)) rows = Ok rows' /\ length rows' = length rows /\
  forall k row', nth_error rows' k = Some row' -> exists row, nth_error rows k = Some row /\ close4 C (fst row') (to_cartesian (X (s + k)%nat)) /\ snd row' = snd row.
Proof.
  intros HC. induction rows as [|r rows IH]; intros s H.
  - exists []. split; [reflexivity|]. split; [reflexivity|]. intros [|k] row' K; discriminate.
  - assert (H0 := H 0%nat r eq_refl). rewrite Nat.add_0_r in H0. destruct (HC (fst r) _ H0 (ex_intro _ s eq_refl)) as (x & E & Hx).
    destruct (IH (S s)) as (rows' & E' & L & K). { intros k row Hk. replace (S s + k)%nat with (s + S k)%nat by lia. apply (H (S k)). exact Hk. }
    exists ((x, snd r) :: rows'). split; [cbn [seqR]; rewrite E; cbn [bindR]; rewrite E'; reflexivity|]. split; [cbn; lia|]. intros [|k] row' Q.
    + cbn in Q. injection Q as <-. exists r. split; [reflexivity|]. rewrite Nat.add_0_r. split; [exact Hx|reflexivity].
    + cbn [nth_error] in Q. destruct (K k row' Q) as (row & Q1 & Q2 & Q3). exists row. split; [exact Q1|]. replace (s + S k)%nat with (S s + k)%nat by lia. split; assumption.
Qed.
(** converting rows near a bounded curve: small error and roundoff *)
Lemma rows_converted (q : R -> V4) T M : 0 <= M -> (forall t, 0 <= t <= T -> close4 M (q t) (mkQ4 0 0 0 0)) ->
  exists r C, 0 < r /\ 0 <= C /\ forall u A e h N rows, 0 <= u -> accurate u A -> 0 <= e -> u + e < r -> 0 < h -> length rows = N -> INR N * h <= T ->
  (forall k row, nth_error rows k = Some row -> vclose e (fst row) (q (INR (S k) * h))) ->
  exists rows', seqR (fun r : row => let* x := to_cartesianA A (fst r) in Ok (x, snd r)) rows = Ok rows' /\ length rows' = N /\
  forall k row', nth_error rows' k = Some row' -> exists row, nth_error rows k = Some row /\ vclose (C * (u + e)) (fst row') (to_cartesian (q (INR (S k) * h))) /\ snd row' = snd row.
Proof.
  intros PM HM. destruct (to_cartesian_uniform M) as (r & C & Hr & PC & H). exists r, C. split; [exact Hr|]. split; [exact PC|]. intros u A e h N rows Hu HA He Hue Hh L HN Hrows.
  assert (G : forall k, (k < N)%nat -> 0 <= INR (S k) * h <= T). { intros k Hk. split; [apply Rmult_le_pos; [apply pos_INR|lra]|]. eapply Rle_trans; [|exact HN]. apply Rmult_le_compat_r; [lra|]. apply le_INR. lia. }
  set (X := fun k => if Nat.ltb k N then q (INR (S k) * h) else mkQ4 0 0 0 0).
  destruct (seqR_rows A rows X e (C * (u + e))) with (s := 0%nat) as (rows' & E & L' & K).
  - intros v v' Hv (k & ->). apply (H (u + e)); [lra|apply (accurate_le u); [lra|exact HA]|eapply close4_le; [|exact Hv]; lra|].
    unfold X. destruct (Nat.ltb_spec k N) as [Lt|Ge]; [apply HM, G; exact Lt|]. unfold close4, close; cbn; rewrite Rminus_0_r, Rabs_R0; repeat split; exact PM.
  - intros k row Hk. cbn [Nat.add]. unfold X. assert (Lk : (k < length rows)%nat) by (apply nth_error_Some; rewrite Hk; discriminate). destruct (Nat.ltb_spec k N) as [_|?]; [|lia]. apply vclose4. apply Hrows. exact Hk.
  - exists rows'. split; [exact E|]. split; [lia|]. intros k row' Hk. destruct (K k row' Hk) as (row & Q1 & Q2 & Q3). exists row. split; [exact Q1|]. split; [|exact Q3].
    assert (Lk : (k < length rows)%nat) by (apply nth_error_Some; rewrite Q1; discriminate). cbn [Nat.add] in Q2. unfold X in Q2. destruct (Nat.ltb_spec k N) as [_|?]; [|lia]. apply vclose4. exact Q2.
Qed.

(** the interval of step sizes *)
Lemma small_steps K r0 r n e0 u h : 0 <= K -> 0 < r0 -> 0 < r -> 0 <= e0 -> 0 <= u -> (0 < n)%nat -> let r1 := Rmin (Rmin r 1) (r0 / (4 * (K + 1))) in 0 < h <= r1 -> e0 + u / h <= r1 ->
  h <= r /\ e0 + u / h <= r /\ u <= u / h /\ 0 <= u / h /\ 0 <= h ^ n /\ u + K * (e0 + h ^ n + u / h) < r0.
Proof.
  intros HK Hr0 Hr He0 Hu Hn r1 Hh H. assert (L1 := Rmin_l (Rmin r 1) (r0 / (4 * (K + 1)))). assert (L2 := Rmin_r (Rmin r 1) (r0 / (4 * (K + 1)))). fold r1 in L1, L2. assert (L3 := Rmin_l r 1). assert (L4 := Rmin_r r 1).
  assert (Q : 0 <= u / h) by (apply Rmult_le_pos; [exact Hu|apply Rlt_le, Rinv_0_lt_compat; lra]).
  assert (Q1 : u <= u / h). { replace u with (u / h * h) at 1 by (field; lra). nra. }
  assert (Q2 : 0 <= h ^ n) by (apply pow_le; lra).
  assert (Q3 : h ^ n <= h). { destruct n as [|m]; [lia|]. cbn [pow]. assert (W : h ^ m <= 1) by (rewrite <- (pow1 m); apply pow_incr; lra). nra. }
  repeat split; try lra. assert (B : (K + 1) * r1 <= r0 / 4). { apply Rmult_le_compat_l with (r := K + 1) in L2; [|lra]. replace ((K + 1) * (r0 / (4 * (K + 1)))) with (r0 / 4) in L2 by (field; lra). exact L2. }
  assert (K * (e0 + h ^ n + u / h) <= K * (2 * r1)) by (apply Rmult_le_compat_l; lra). nra.
Qed.
Lemma final_bound K C e0 a b u d : 0 <= K -> 0 <= C -> 0 <= e0 -> 0 <= a -> 0 <= b -> 0 <= u <= b -> d = K * (e0 + a + b) -> C * (u + d) <= C * (K + 1) * (e0 + a + b) /\ d <= (C * (K + 1) + K) * (e0 + a + b).
Proof.
  intros HK HC H0 Ha Hb Hu ->. split; [rewrite Rmult_assoc; apply Rmult_le_compat_l; [exact HC|]; lra|]. assert (0 <= C * (K + 1)) by (apply Rmult_le_pos; lra). assert (0 <= C * (K + 1) * (e0 + a + b)) by (apply Rmult_le_pos; lra). lra.
Qed.
Lemma vclose_le a b v w : a <= b -> vclose a v w -> vclose b v w.
Proof. intros H K i Hi. specialize (K i Hi). lra. Qed.

(** calculate_trajectory, Cartesian rows *)
Theorem trajectory_cartesian order g w f n (q p : R -> V4) T :
  integrator_of order (metricfun_of g) w = Ok f -> n = 2%nat \/ (order = 4 /\ n = 4)%nat -> well_formed g -> symmetric_program g -> 0 < T -> geodesic_on g q p T ->
  exists K r, 0 <= K /\ 0 < r /\ forall u A, 0 <= u -> accurate u A -> forall h N e0 q0 p0, 0 < h <= r -> (0 < N)%nat -> INR N * h <= T -> vclose e0 q0 (q 0) -> vclose e0 p0 (p 0) -> e0 + u / h <= r ->
  exists rows, trajectoryA A g q0 p0 true N h order w = Ok rows /\ length rows = N /\
  forall k row, nth_error rows k = Some row -> vclose (K * (e0 + h ^ n + u / h)) (fst row) (to_cartesian (q (INR (S k) * h))) /\ vclose (K * (e0 + h ^ n + u / h)) (snd row) (p (INR (S k) * h)).
Proof.
  intros Hf Hn Hwf Hs HT Hg. assert (n0 : (0 < n)%nat) by (destruct Hn as [-> |[_ ->]]; lia).
  destruct (trajectory_rounded order g w f n q p T Hf Hn Hwf Hs HT Hg) as (K & r & HK & Hr & H). destruct (geodesic_bounded g q p T ltac:(lra) Hg) as (M & PM & HM).
  destruct (rows_converted q T M PM HM) as (r0 & C & Hr0 & HC & HR).
  exists (C * (K + 1) + K), (Rmin (Rmin r 1) (r0 / (4 * (K + 1)))). assert (0 <= C * (K + 1)) by (apply Rmult_le_pos; lra). split; [lra|]. split; [repeat apply Rmin_pos; try lra; apply Rdiv_lt_0_compat; lra|].
  intros u A Hu HA h N e0 q0 p0 Hh HN HNT Hq0 Hp0 He.
  assert (E0 : 0 <= e0) by (eapply Rle_trans; [apply Rabs_pos|apply (Hq0 0%nat); lia]).
  destruct (small_steps K r0 r n e0 u h HK Hr0 Hr E0 Hu n0 Hh He) as (B1 & B2 & B3 & B4 & B5 & B6).
  destruct (H u A Hu HA h N e0 q0 p0 ltac:(lra) HN HNT (fun i Hi => Logic.conj (Hq0 i Hi) (Hp0 i Hi)) B2) as (rows & E & L & Hrows).
  assert (D0 : 0 <= K * (e0 + h ^ n + u / h)) by (apply Rmult_le_pos; lra).
  destruct (HR u A _ h N rows Hu HA D0 B6 ltac:(lra) L HNT (fun k row Hk i Hi => proj1 (Hrows k row Hk i Hi))) as (rows' & E' & L' & Hrows').
  destruct (final_bound K C e0 (h ^ n) (u / h) u _ HK HC E0 B5 B4 (Logic.conj Hu B3) eq_refl) as (F1 & F2).
  exists rows'. split; [rewrite trajectory_modes, E; exact E'|]. split; [exact L'|]. intros k row' Hk. destruct (Hrows' k row' Hk) as (row & Q1 & Q2 & Q3). split.
  - eapply vclose_le; [|exact Q2]. eapply Rle_trans; [exact F1|]. rewrite (Rmult_plus_distr_r (C * (K + 1))). lra.
  - rewrite Q3. eapply vclose_le; [exact F2|]. intros i Hi. exact (proj2 (Hrows k row Q1 i Hi)).
Qed.
(** Geodesic from data for which the polar version holds *)
Lemma geodesic_cart_gen m prms pos mom tl order w n P g (q p : R -> V4) T K r : (0 < n)%nat -> 0 <= K -> 0 < r -> 0 < T -> geodesic_on g q p T ->
  (forall u A, 0 <= u -> accurate u A -> forall h N, 0 < h <= r -> u / h <= r -> (0 < N)%nat -> INR N * h <= T ->
   exists P' rows, geodesicA A m prms pos mom tl false N h order w = Ok (P', rows) /\ vclose (K * u) P' P /\ length rows = N /\
   forall k row, nth_error rows k = Some row -> vclose (K * (h ^ n + u / h)) (fst row) (q (INR (S k) * h)) /\ vclose (K * (h ^ n + u / h)) (snd row) (p (INR (S k) * h))) ->
  exists K' r', 0 <= K' /\ 0 < r' /\ forall u A, 0 <= u -> accurate u A -> forall h N, 0 < h <= r' -> u / h <= r' -> (0 < N)%nat -> INR N * h <= T ->
   exists P' rows, geodesicA A m prms pos mom tl true N h order w = Ok (P', rows) /\ vclose (K' * u) P' P /\ length rows = N /\
   forall k row, nth_error rows k = Some row -> vclose (K' * (h ^ n + u / h)) (fst row) (to_cartesian (q (INR (S k) * h))) /\ vclose (K' * (h ^ n + u / h)) (snd row) (p (INR (S k) * h)).
Proof.
  intros n0 HK Hr HT Hg H. destruct (geodesic_bounded g q p T ltac:(lra) Hg) as (M & PM & HM). destruct (rows_converted q T M PM HM) as (r0 & C & Hr0 & HC & HR).
  exists (C * (K + 1) + K), (Rmin (Rmin r 1) (r0 / (4 * (K + 1)))). assert (0 <= C * (K + 1)) by (apply Rmult_le_pos; lra). split; [lra|]. split; [repeat apply Rmin_pos; try lra; apply Rdiv_lt_0_compat; lra|].
  intros u A Hu HA h N Hh Huh HN HNT.
  destruct (small_steps K r0 r n 0 u h HK Hr0 Hr (Rle_refl 0) Hu n0 Hh ltac:(lra)) as (B1 & B2 & B3 & B4 & B5 & B6).
  destruct (H u A Hu HA h N ltac:(lra) ltac:(lra) HN HNT) as (P' & rows & E & HP & L & Hrows).
  replace (0 + h ^ n + u / h) with (h ^ n + u / h) in B6 by ring.
  assert (D0 : 0 <= K * (h ^ n + u / h)) by (apply Rmult_le_pos; lra).
  destruct (HR u A _ h N rows Hu HA D0 B6 ltac:(lra) L HNT (fun k row Hk => proj1 (Hrows k row Hk))) as (rows' & E' & L' & Hrows').
  assert (EE : K * (h ^ n + u / h) = K * (0 + h ^ n + u / h)) by ring.
  destruct (final_bound K C 0 (h ^ n) (u / h) u _ HK HC (Rle_refl 0) B5 B4 (Logic.conj Hu B3) EE) as (F1 & F2). replace (0 + h ^ n + u / h) with (h ^ n + u / h) in F1, F2 by ring.
  exists P', rows'. split; [rewrite geodesic_modes, E; cbn [bindR fst snd]; rewrite E'; reflexivity|]. split; [eapply vclose_le; [|exact HP]; rewrite Rmult_plus_distr_r; assert (0 <= C * (K + 1) * u) by (apply Rmult_le_pos; lra); lra|]. split; [exact L'|].
  intros k row' Hk. destruct (Hrows' k row' Hk) as (row & Q1 & Q2 & Q3). split.
  - eapply vclose_le; [|exact Q2]. eapply Rle_trans; [exact F1|]. rewrite (Rmult_plus_distr_r (C * (K + 1))). lra.
  - rewrite Q3. eapply vclose_le; [exact F2|]. apply (Hrows k row Q1).
Qed.
Lemma n_pos (order n : nat) : n = 2%nat \/ (order = 4 /\ n = 4)%nat -> (0 < n)%nat.
Proof. intros [-> |[_ ->]]; lia. Qed.
Theorem named_cartesian s prms cov out x1 x2 x3 u1 u2 u3 tl order w n : book s prms cov out -> out x1 x2 -> tl = true \/ u1 <> 0 \/ u2 <> 0 \/ u3 <> 0 ->
  In order [2; 4; 6; 8]%nat -> n = 2%nat \/ (order = 4 /\ n = 4)%nat ->
  exists g guu T q p K r, 0 < T /\ 0 <= K /\ 0 < r /\
  (forall t' r' th' ph', out r' th' -> exists m, metric_at g (mk4 t' r' th' ph') = Ok m /\ inverse_of m (cov r' th')) /\ inverse_of guu (cov x1 x2) /\
  geodesic_on g q p T /\ q 0 = mkQ4 0 x1 x2 x3 /\ on_shell_future guu (p 0) u1 u2 u3 tl /\
  forall u A, 0 <= u -> accurate u A -> forall h N, 0 < h <= r -> u / h <= r -> (0 < N)%nat -> INR N * h <= T ->
  exists P' rows, geodesicA A (MName s) prms (x1, x2, x3) (u1, u2, u3) tl true N h order w = Ok (P', rows) /\ vclose (K * u) P' (p 0) /\ length rows = N /\
  forall k row, nth_error rows k = Some row ->
  vclose (K * (h ^ n + u / h)) (fst row) (to_cartesian (q (INR (S k) * h))) /\ vclose (K * (h ^ n + u / h)) (snd row) (p (INR (S k) * h)).
Proof.
  intros Hb Ho Hm Hi Hn. destruct (named_rounded s prms cov out x1 x2 x3 u1 u2 u3 tl order w n Hb Ho Hm Hi Hn) as (g & guu & T & q & p & K & r & HT & HK & Hr & A1 & A2 & A3 & A4 & A5 & A6).
  destruct (geodesic_cart_gen (MName s) prms (x1, x2, x3) (u1, u2, u3) tl order w n (p 0) g q p T K r (n_pos _ _ Hn) HK Hr HT A3 A6) as (K' & r' & HK' & Hr' & H).
  exists g, guu, T, q, p, K', r'. repeat (split; [assumption|]). exact H.
Qed.
Theorem geodesic_cartesian m prms x1 x2 x3 u1 u2 u3 tl order w f n call gP gI P (q p : R -> V4) T :
  resolve_metric m = Ok call -> call prms = Ok gP -> call (resolve_params m prms) = Ok gI ->
  well_formed gP -> rational_metric gP -> well_formed gI -> symmetric_program gI ->
  P4 gP (mkQ4 0 x1 x2 x3) u1 u2 u3 tl = Ok P -> 0 < discriminant gP (mkQ4 0 x1 x2 x3) u1 u2 u3 tl ->
  integrator_of order (metricfun_of gI) w = Ok f -> n = 2%nat \/ (order = 4 /\ n = 4)%nat ->
  0 < T -> geodesic_on gI q p T -> q 0 = mkQ4 0 x1 x2 x3 -> p 0 = P ->
  exists K r, 0 <= K /\ 0 < r /\ forall u A, 0 <= u -> accurate u A -> forall h N, 0 < h <= r -> u / h <= r -> (0 < N)%nat -> INR N * h <= T ->
  exists P' rows, geodesicA A m prms (x1, x2, x3) (u1, u2, u3) tl true N h order w = Ok (P', rows) /\ vclose (K * u) P' P /\ length rows = N /\
  forall k row, nth_error rows k = Some row ->
  vclose (K * (h ^ n + u / h)) (fst row) (to_cartesian (q (INR (S k) * h))) /\ vclose (K * (h ^ n + u / h)) (snd row) (p (INR (S k) * h)).
Proof.
  intros H1 H2 H3 H4 H5 H6 H7 H8 H9 H10 Hn HT Hg Hq Hp.
  destruct (geodesic_rounded m prms x1 x2 x3 u1 u2 u3 tl order w f n call gP gI P q p T H1 H2 H3 H4 H5 H6 H7 H8 H9 H10 Hn HT Hg Hq Hp) as (K & r & HK & Hr & H).
  exact (geodesic_cart_gen m prms (x1, x2, x3) (u1, u2, u3) tl order w n P gI q p T K r (n_pos _ _ Hn) HK Hr HT Hg H).
Qed.
