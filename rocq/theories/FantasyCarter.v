(** Further constants of motion along computed trajectories: any quantity computed by a program from position and momentum that is constant along the exact geodesic
    drifts along the rows by no more than the integration error; for the built-in black holes Carter's quantity is such a constant. *)
From Coq Require Import String Reals List ZArith Lra Lia Bool.
From Coquelicot Require Import Coquelicot.
From Verif Require Import Base Calc DualModel DualSpec DualProofs DualDiff GeoUtilsModel GeoUtilsSpec GeoUtilsProofs GeodesicModel GeodesicProofs
  FantasyModel FantasyProofs FantasyProofs2 FantasyProofs3 FantasyHam FantasySymp ProgCont WordSeries WordOrder FantasyOrder FantasyOrder2 FantasyOrder3 FantasyOrder4 FantasyGlobal FantasyGlobal2 FantasyGlobal3
  FantasyShell FantasyCyclic FantasyCircular FloatModel FloatExact FloatTrack FloatGlobal FloatTraj.
Import ListNotations.
Open Scope R_scope.

(** the quantity computed by the program e from position (variables 0-3) and momentum (variables 4-7) *)
Definition quantity_of (e : pexpr) (q p : V4) : R := meaning (pt8 q p) e.
Definition conserved (e : pexpr) (q p : R -> V4) (T : R) : Prop := forall t, 0 <= t <= T -> quantity_of e (q t) (p t) = quantity_of e (q 0) (p 0).

Definition q_lip (e : pexpr) (q p : R -> V4) (rho L t : R) : Prop := forall q' p' eps, eps < rho ->
  (forall i, (i < 4)%nat -> Rabs (q4nth q' i - q4nth (q t) i) <= eps /\ Rabs (q4nth p' i - q4nth (p t) i) <= eps) -> Rabs (quantity_of e q' p' - quantity_of e (q t) (p t)) <= L * eps.
Lemma q_compact e g q p T : below 8 e = true -> 0 < T -> geodesic_on g q p T -> (forall t, 0 <= t <= T -> defined_at (pt8 (q t) (p t)) e) ->
  exists rho L, 0 < rho /\ 0 <= L /\ forall t, 0 <= t <= T -> q_lip e q p rho L t.
Proof.
  intros Hb HT Hg Hdef. apply (real_induction (fun x y => exists rho L, 0 < rho /\ 0 <= L /\ forall t, x <= t <= y -> q_lip e q p rho L t) 0 T ltac:(lra)).
  - intros x y x' y' (rho & L & A & B & C) H1 H2. exists rho, L. split; [exact A|]. split; [exact B|]. intros t Ht. apply C. lra.
  - intros x y z Hy (rho & L & A & B & C) (rho' & L' & A' & B' & C'). exists (Rmin rho rho'), (Rmax L L'). split; [apply Rmin_pos; assumption|]. split; [eapply Rle_trans; [exact B|apply Rmax_l]|].
    intros t Ht q' p' eps He Hw. assert (E0 : 0 <= eps) by (destruct (Hw 0%nat ltac:(lia)) as [Q _]; eapply Rle_trans; [apply Rabs_pos|exact Q]).
    assert (M1 := Rmin_l rho rho'). assert (M2 := Rmin_r rho rho'). assert (M3 := Rmax_l L L'). assert (M4 := Rmax_r L L').
    destruct (Rle_dec t y) as [K|K].
    + eapply Rle_trans; [apply (C t ltac:(lra) q' p' eps ltac:(lra) Hw)|]. apply Rmult_le_compat_r; [exact E0|exact M3].
    + eapply Rle_trans; [apply (C' t ltac:(lra) q' p' eps ltac:(lra) Hw)|]. apply Rmult_le_compat_r; [exact E0|exact M4].
  - intros x Hx. destruct (Hg x Hx) as [Hd Hl]. destruct (prog_lip 8 e (pt8 (q x) (p x)) Hb (Hdef x Hx)) as (r & L & Hr & HL & H).
    assert (Cx : exists d, 0 < d /\ forall t, Rabs (t - x) < d -> forall i, (i < 4)%nat -> Rabs (q4nth (q t) i - q4nth (q x) i) < r / 2 /\ Rabs (q4nth (p t) i - q4nth (p x) i) < r / 2).
    { assert (S := locally_singleton _ _ Hl).
      assert (Q : forall m, (m <= 4)%nat -> exists d, 0 < d /\ forall t, Rabs (t - x) < d -> forall i, (i < m)%nat -> Rabs (q4nth (q t) i - q4nth (q x) i) < r / 2 /\ Rabs (q4nth (p t) i - q4nth (p x) i) < r / 2).
      { induction m as [|m IH]; intros Hm; [exists 1; split; [lra|]; intros; lia|]. destruct (IH ltac:(lia)) as (d & Hd' & K). destruct (S m ltac:(lia)) as [A (D & _ & B)]. apply D_continuous in A. apply D_continuous in B.
        assert (hr : 0 < r / 2) by lra.
        destruct (A (fun v => Rabs (v - q4nth (q x) m) < r / 2)) as [e1 E1]. { exists (mkposreal (r / 2) hr). intros v Hv. exact Hv. }
        destruct (B (fun v => Rabs (v - q4nth (p x) m) < r / 2)) as [e2 E2]. { exists (mkposreal (r / 2) hr). intros v Hv. exact Hv. }
        exists (Rmin d (Rmin e1 e2)). split; [repeat apply Rmin_pos; [exact Hd'|apply cond_pos|apply cond_pos]|]. intros t Ht i Hi.
        assert (M1 := Rmin_l d (Rmin e1 e2)). assert (M2 := Rmin_r d (Rmin e1 e2)). assert (M3 := Rmin_l e1 e2). assert (M4 := Rmin_r e1 e2).
        destruct (Nat.eq_dec i m) as [-> |]; [|apply K; [lra|lia]]. split; [apply E1|apply E2]; (eapply Rlt_le_trans; [exact Ht|lra]). }
      apply Q. lia. }
    destruct Cx as (d & Hd' & Cx). exists (d / 2). split; [lra|]. exists (r / 2), L. split; [lra|]. split; [exact HL|]. intros t Ht q' p' eps He Hw.
    assert (Kt := Cx t ltac:(apply Rabs_def1; lra)). unfold quantity_of.
    assert (N1 : forall i, (i < 8)%nat -> Rabs (pt8 (q t) (p t) i - pt8 (q x) (p x) i) < r / 2).
    { intros i Hi. unfold pt8. destruct (Nat.ltb_spec i 4) as [M|M]; [apply Kt; exact M|]. destruct (Nat.ltb_spec i 8) as [M'|M']; [apply Kt; lia|]. lia. }
    assert (N2 := pt8_within (q t) (p t) q' p' eps Hw).
    apply H; [| |intros i Hi; apply N2; lia].
    + intros i Hi. replace (pt8 q' p' i - pt8 (q x) (p x) i) with ((pt8 q' p' i - pt8 (q t) (p t) i) + (pt8 (q t) (p t) i - pt8 (q x) (p x) i)) by ring. eapply Rle_lt_trans; [apply Rabs_triang|]. assert (A := N1 i Hi). assert (B := N2 i ltac:(lia)). lra.
    + intros i Hi. assert (A := N1 i Hi). lra.
Qed.
Lemma step_time T N h k : 0 < h -> (0 < N)%nat -> INR N * h <= T -> (k < N)%nat -> 0 <= INR (S k) * h <= T.
Proof.
  intros Hh HN HT Hk. split; [apply Rmult_le_pos; [apply pos_INR|lra]|]. assert (Q : INR (S k) <= INR N) by (apply le_INR; lia). apply Rle_trans with (INR N * h); [apply Rmult_le_compat_r; lra|exact HT].
Qed.
(** exact arithmetic *)
Theorem conserved_drift order g w f n e (q p : R -> V4) T :
  integrator_of order (metricfun_of g) w = Ok f -> n = 2%nat \/ (order = 4 /\ n = 4)%nat ->
  well_formed g -> symmetric_program g -> 0 < T -> geodesic_on g q p T ->
  below 8 e = true -> (forall t, 0 <= t <= T -> defined_at (pt8 (q t) (p t)) e) -> conserved e q p T ->
  exists C N0, (0 < N0)%nat /\ forall N tl rtol atol suppress, (N0 <= N)%nat ->
  exists rows, calculate_trajectory g (q 0) (p 0) tl false (mkkw N (T / INR N) rtol atol order w suppress) = Ok (seq 0 N, rows) /\ length rows = N /\
  forall row, In row rows -> Rabs (quantity_of e (fst row) (snd row) - quantity_of e (q 0) (p 0)) <= C * (T / INR N) ^ n.
Proof.
  intros Hf Hn Hwf Hsym HT Hg Hb Hdef Hc. destruct (trajectory_converges order g w f n q p T Hf Hn Hwf Hsym HT Hg) as (C & N0 & HN0 & H).
  destruct (q_compact e g q p T Hb HT Hg Hdef) as (rho & L & Hr & HL & HS).
  assert (n0 : (0 < n)%nat) by (destruct Hn as [-> |[_ ->]]; lia).
  destruct (small_steps T (Rabs C) rho n HT (Rabs_pos C) Hr n0) as (N1 & HN1 & K).
  exists (L * Rabs C), (Nat.max N0 N1). split; [lia|]. intros N tl rtol atol suppress HN. destruct (H N tl rtol atol suppress ltac:(lia)) as (rows & E & Hlen & Hrow). exists rows. split; [exact E|]. split; [exact Hlen|].
  intros row Hin. apply In_nth_error in Hin as (k & Hk). destruct (K N ltac:(lia)) as [_ K2].
  assert (kN : (k < N)%nat) by (rewrite <- Hlen; apply nth_error_Some; rewrite Hk; discriminate).
  assert (PN : 0 < INR N) by (apply lt_0_INR; lia).
  set (h := T / INR N) in *. assert (Hh : 0 < h) by (apply Rdiv_lt_0_compat; assumption).
  assert (Ht : 0 <= INR (S k) * h <= T). { apply (step_time T N); [exact Hh|lia| |exact kN]. unfold h. apply Req_le. field. lra. }
  set (t := INR (S k) * h) in *.
  rewrite <- (Hc t Ht).
  assert (B : C * h ^ n <= Rabs C * h ^ n) by (apply Rmult_le_compat_r; [apply pow_le; lra|apply Rle_abs]).
  rewrite Rmult_assoc. apply (HS t Ht); [exact K2|]. intros i Hi. destruct (Hrow k row Hk i Hi) as [A1 A2]. fold t in A1, A2. split; lra.
Qed.
(** floating point *)
Theorem conserved_rounded order g w f n e (q p : R -> V4) T :
  integrator_of order (metricfun_of g) w = Ok f -> n = 2%nat \/ (order = 4 /\ n = 4)%nat ->
  well_formed g -> symmetric_program g -> 0 < T -> geodesic_on g q p T ->
  below 8 e = true -> (forall t, 0 <= t <= T -> defined_at (pt8 (q t) (p t)) e) -> conserved e q p T ->
  exists K r, 0 <= K /\ 0 < r /\ forall u A, 0 <= u -> accurate u A -> forall h N e0 q0 p0, 0 < h <= r -> (0 < N)%nat -> INR N * h <= T ->
  (forall i, (i < 4)%nat -> Rabs (q4nth q0 i - q4nth (q 0) i) <= e0 /\ Rabs (q4nth p0 i - q4nth (p 0) i) <= e0) -> e0 + u / h <= r ->
  exists rows, trajectoryA A g q0 p0 false N h order w = Ok rows /\ length rows = N /\
  forall row, In row rows -> Rabs (quantity_of e (fst row) (snd row) - quantity_of e (q 0) (p 0)) <= K * (e0 + h ^ n + u / h).
Proof.
  intros Hf Hn Hwf Hsym HT Hg Hb Hdef Hc. destruct (trajectory_rounded order g w f n q p T Hf Hn Hwf Hsym HT Hg) as (K & r & HK & Pr & H).
  destruct (q_compact e g q p T Hb HT Hg Hdef) as (rho & L & Hr & HL & HS).
  assert (n0 : (0 < n)%nat) by (destruct Hn as [-> |[_ ->]]; lia).
  set (d := rho / (4 * (K + 1))). assert (Pd : 0 < d) by (apply Rdiv_lt_0_compat; lra).
  exists (L * K), (Rmin r (Rmin 1 d)). split; [apply Rmult_le_pos; assumption|]. split; [repeat apply Rmin_pos; lra|].
  intros u A Hu HA h N e0 q0 p0 Hh HN HNT H0 He.
  assert (M1 := Rmin_l r (Rmin 1 d)). assert (M2 := Rmin_r r (Rmin 1 d)). assert (M3 := Rmin_l 1 d). assert (M4 := Rmin_r 1 d).
  destruct (H u A Hu HA h N e0 q0 p0 ltac:(lra) HN HNT H0 ltac:(lra)) as (rows & E & Hlen & Hrow). exists rows. split; [exact E|]. split; [exact Hlen|].
  intros row Hin. apply In_nth_error in Hin as (k & Hk).
  assert (kN : (k < N)%nat) by (rewrite <- Hlen; apply nth_error_Some; rewrite Hk; discriminate).
  assert (Ht := step_time T N h k ltac:(lra) HN HNT kN). set (t := INR (S k) * h) in *. rewrite <- (Hc t Ht). rewrite Rmult_assoc. apply (HS t Ht).
  - assert (Hp : h ^ n <= d). { destruct n as [|m]; [lia|]. cbn [pow]. assert (Q : h ^ m <= 1) by (rewrite <- (pow1 m); apply pow_incr; lra). assert (Q0 : 0 <= h ^ m) by (apply pow_le; lra). nra. }
    apply Rle_lt_trans with (K * (2 * d)); [apply Rmult_le_compat_l; lra|]. unfold d. apply Rmult_lt_reg_r with (4 * (K + 1)); [lra|].
    replace (K * (2 * (rho / (4 * (K + 1)))) * (4 * (K + 1))) with (2 * K * rho) by (field; lra). nra.
  - intros i Hi. exact (Hrow k row Hk i Hi).
Qed.

(** ---- Carter's constant ---- *)
(** Carter's quantity of a particle of momentum p = (p_t, p_r, p_theta, p_phi) at q, with twice its Hamiltonian H2 = g^ij p_i p_j, around a hole of spin a *)
Definition carter (a : R) (q p : V4) (H2 : R) : R :=
  c2 p * c2 p + (a * sin (c2 q) * c0 p + c3 p / sin (c2 q)) * (a * sin (c2 q) * c0 p + c3 p / sin (c2 q)) - a * a * (cos (c2 q) * cos (c2 q)) * H2.
(** the same as a program over (t, r, theta, phi, p_t, p_r, p_theta, p_phi) *)
Definition carterE (a : R) (g : metricP) : pexpr :=
  let th := EVar 2 in let x := EAdd (EMul (EMul (EConst a) (ESin th)) (EVar 4)) (EDiv (EVar 7) (ESin th)) in
  ESub (EAdd (EMul (EVar 6) (EVar 6)) (EMul x x)) (EMul (EMul (EConst (a * a)) (EMul (ECos th) (ECos th))) (EMul (EConst 2) (shellE g))).
Lemma carterE_spec a g q p : well_formed g -> quantity_of (carterE a g) q p = carter a q p (2 * Ham g q p).
Proof.
  intros W. unfold quantity_of, carterE, carter. cbv zeta. cbn [meaning]. rewrite <- (Ham_shell g q p W). generalize (Ham g q p). intros h. destruct q as [q0 q1 q2 q3], p as [p0 p1 p2 p3].
  cbn [pt8 Nat.ltb Nat.leb q4nth c0 c1 c2 c3 Nat.sub]. reflexivity.
Qed.
Lemma shell8 g : well_formed g -> below 8 (shellE g) = true.
Proof.
  intros H. unfold shellE, hamE. cbn [below]. cbn [andb]. apply esum_below. intros i Hi. apply esum_below. intros j Hj. cbn [below].
  rewrite (ren_below 0 _ 4 8) by (rewrite <- ?below_vars; auto; try lia; apply H; assumption). cbn [andb].
  apply andb_true_intro; split; apply Nat.ltb_lt; lia.
Qed.
Lemma carter_below a g : well_formed g -> below 8 (carterE a g) = true.
Proof. intros W. unfold carterE. cbv zeta. cbn [below]. rewrite (shell8 g W). reflexivity. Qed.
(** the metric program g is that of a black hole of spin a and charge Q, and raises outside its domain *)
Definition hole (g : metricP) (a Q : R) : Prop := is_kn g a Q /\ forall t r th ph, metric_defined g (q4nth (mk4 t r th ph)) -> SigmaS r th a <> 0 /\ DeltaS r a Q <> 0 /\ sin th <> 0.
Ltac parts := repeat match goal with H : _ /\ _ |- _ => destruct H end; assumption.
Lemma hole_sch : hole schE 0 0.
Proof.
  split; [exact is_kn_sch|]. intros t r th ph H. assert (H0 := H 0%nat 0%nat ltac:(lia) ltac:(lia)). assert (H3 := H 3%nat 3%nat ltac:(lia) ltac:(lia)).
  unfold schE, mnth, Ec, Esq, mk4 in H0, H3. cbv zeta in H0, H3. cbn [q4nth c0 c1 c2 c3 defined_at meaning] in H0, H3.
  assert (R0 : r <> 0) by parts. assert (R1 : 1 - 2 / r <> 0) by parts. assert (R2 : powerRZ (r * sin th) 2 <> 0) by parts. rewrite powerRZ2 in R2. unfold SigmaS, DeltaS. split; [|split].
  - intros E. apply R0. nra.
  - intros E. apply R1. assert (X : r * (r - 2) = 0) by lra. apply Rmult_integral in X as [X|X]; [lra|]. replace r with 2 by lra. field.
  - intros E. apply R2. rewrite E. ring.
Qed.
Lemma hole_kerr a : hole (kerrE a) a 0.
Proof.
  split; [apply is_kn_kerr|]. intros t r th ph H. assert (H0 := H 0%nat 0%nat ltac:(lia) ltac:(lia)). assert (H3 := H 3%nat 3%nat ltac:(lia) ltac:(lia)).
  unfold kerrE, mnth, sigmaE, deltaE, Ec, Esq, mk4 in H0, H3. cbv zeta in H0, H3. cbn [q4nth c0 c1 c2 c3 defined_at meaning] in H0, H3. rewrite !powerRZ2 in H0, H3.
  assert (R0 : r * r + a * cos th * (a * cos th) <> 0) by parts. assert (R1 : r * r - 2 * r + a * a + 0 * 0 <> 0) by parts.
  assert (R2 : (r * r - 2 * r + a * a + 0 * 0) * (sin th * sin th) <> 0) by parts. unfold SigmaS, DeltaS. split; [|split].
  - intros E. apply R0. rewrite <- E. ring.
  - exact R1.
  - intros E. apply R2. rewrite E. ring.
Qed.
Lemma hole_kn a Q : hole (kerrnewmanE a Q) a Q.
Proof.
  split; [apply is_kn_kn|]. intros t r th ph H. assert (H0 := H 0%nat 0%nat ltac:(lia) ltac:(lia)). assert (H1 := H 1%nat 1%nat ltac:(lia) ltac:(lia)). assert (H3 := H 3%nat 3%nat ltac:(lia) ltac:(lia)).
  unfold kerrnewmanE, mnth, sigmaE, deltaE, Ec, Esq, mk4 in H0, H1, H3. cbv zeta in H0, H1, H3. cbn [q4nth c0 c1 c2 c3 defined_at meaning] in H0, H1, H3. repeat rewrite powerRZ2 in H0; repeat rewrite powerRZ2 in H1; repeat rewrite powerRZ2 in H3.
  assert (R0 : r * r + a * cos th * (a * cos th) <> 0) by parts.
  assert (R1 : (r * r - 2 * r + a * a + Q * Q) * ((a * a + 2 * (r * r) + a * a * cos (2 * th)) * (a * a + 2 * (r * r) + a * a * cos (2 * th))) <> 0) by parts.
  assert (R2 : sin th * sin th <> 0) by parts. unfold SigmaS, DeltaS. split; [|split].
  - intros E. apply R0. rewrite <- E. ring.
  - intros E. apply R1. rewrite E. ring.
  - intros E. apply R2. rewrite E. ring.
Qed.

(** the separated form of the Hamiltonian *)
Lemma kn_separated a Q r th p : SigmaS r th a <> 0 -> DeltaS r a Q <> 0 -> sin th <> 0 ->
  dot (mv (kn_con a Q r th) p) p =
  (DeltaS r a Q * (c1 p * c1 p) - ((r * r + a * a) * c0 p + a * c3 p) * ((r * r + a * a) * c0 p + a * c3 p) / DeltaS r a Q + c2 p * c2 p
   + (a * sin th * c0 p + c3 p / sin th) * (a * sin th * c0 p + c3 p / sin th)) / SigmaS r th a.
Proof.
  intros HS HD Hs. destruct p as [p0 p1 p2 p3]. unfold kn_con, mv, dot. cbv zeta. cbn [q4map c0 c1 c2 c3].
  replace (a * (2 * r - Q * Q)) with (a * (r * r + a * a - DeltaS r a Q)) by (unfold DeltaS; ring).
  set (S := SigmaS r th a) in *. set (D := DeltaS r a Q) in *. clearbody S D. field. repeat split; assumption.
Qed.
Lemma sigma_derive r a x : is_derive (fun y => SigmaS r y a) x (- 2 * (a * a) * (cos x * sin x)).
Proof. unfold SigmaS. auto_derive; [exact I|ring]. Qed.
Lemma theta_derivative (a r th : R) (p : V4) : SigmaS r th a <> 0 -> sin th <> 0 ->
  let X := a * sin th * c0 p + c3 p / sin th in
  forall B, is_derive (fun x => / 2 * ((B + (a * sin x * c0 p + c3 p / sin x) * (a * sin x * c0 p + c3 p / sin x)) / SigmaS r x a)) th
    (X * (a * cos th * c0 p - c3 p * cos th / (sin th * sin th)) / SigmaS r th a + (B + X * X) * (a * a) * (cos th * sin th) / (SigmaS r th a * SigmaS r th a)).
Proof. intros HS Hs X B. unfold X, SigmaS in *. auto_derive; [repeat split; assumption|]. field. repeat split; assumption. Qed.
Lemma hole_ham g a Q : hole g a Q -> forall q p, metric_defined g (q4nth q) -> Ham g q p = / 2 * dot (mv (kn_con a Q (c1 q) (c2 q)) p) p.
Proof.
  intros [(_ & _ & K) D] [t r th ph] p Hd. destruct (D t r th ph Hd) as (HS & HD & Hs). destruct (K t r th ph HS HD Hs) as [_ E]. unfold Ham. cbn [c1 c2]. change (mkQ4 t r th ph) with (mk4 t r th ph). rewrite E. unfold quad. reflexivity.
Qed.
Lemma near_domain r a th : SigmaS r th a <> 0 -> sin th <> 0 -> locally th (fun x => SigmaS r x a <> 0 /\ sin x <> 0).
Proof.
  intros HS Hs. apply filter_and.
  - assert (C : continuous (fun y => SigmaS r y a) th) by (eapply D_continuous; apply sigma_derive). exact (C (fun v => v <> 0) (open_neq 0 _ HS)).
  - assert (C : continuous sin th) by (apply continuity_pt_filterlim, continuity_sin). exact (C (fun v => v <> 0) (open_neq 0 _ Hs)).
Qed.
Lemma carter_derivative g a Q q p t : hole g a Q -> metric_defined g (q4nth (q t)) -> independent_of g 0 -> independent_of g 3 -> hamilton g q p t ->
  is_derive (fun u => carter a (q u) (p u) (2 * Ham g (q u) (p u))) t 0.
Proof.
  intros Hh Hd I0 I3 HH. assert (Hh' := Hh). destruct Hh' as [(W & Sy & K) Dom]. assert (E := q t). 
  destruct (HH 2%nat ltac:(lia)) as [Th (D & D1 & D2)]. destruct (HH 0%nat ltac:(lia)) as [_ (D0 & D01 & D02)]. destruct (HH 3%nat ltac:(lia)) as [_ (D3 & D31 & D32)].
  assert (Z : forall k D, (k < 4)%nat -> independent_of g k -> is_derive (fun x => Ham g (vupd (q t) k x) (p t)) (q4nth (q t) k) D -> D = 0).
  { intros k D' Hk I HD. rewrite <- (is_derive_unique _ _ _ HD). apply is_derive_unique. apply (D_ext (fun _ => Ham g (q t) (p t))); [|apply D_const]. intros s. symmetry. apply Ham_indep; assumption. }
  assert (D0 = 0) by (apply (Z 0%nat); [lia|exact I0|exact D01]). assert (D3 = 0) by (apply (Z 3%nat); [lia|exact I3|exact D31]). subst D0 D3. rewrite Ropp_0 in D02, D32.
  assert (DH := shell_derivative g q p t W Sy Hd HH).
  destruct (q t) as [qt r th ph] eqn:Eq. destruct (Dom qt r th ph Hd) as (HS & HD & Hs).
  assert (EM : metric_meaning g (q4nth (mkQ4 qt r th ph)) = kn_con a Q r th) by exact (proj2 (K qt r th ph HS HD Hs)).
  rewrite EM in Th. cbn [q4nth] in Th, D1, D2, D02, D32.
  set (P := p t) in *. 
  assert (Th' : q4nth (mv (kn_con a Q r th) P) 2 = c2 P / SigmaS r th a). { destruct P as [P0 P1 P2 P3]. unfold kn_con, mv, dot. cbv zeta. cbn [q4map q4nth c0 c1 c2 c3]. field. exact HS. }
  cbn [q4nth] in Th'. rewrite Th' in Th.
  set (B := DeltaS r a Q * (c1 P * c1 P) - ((r * r + a * a) * c0 P + a * c3 P) * ((r * r + a * a) * c0 P + a * c3 P) / DeltaS r a Q + c2 P * c2 P).
  assert (HF := theta_derivative a r th P HS Hs B). cbv zeta in HF.
  assert (ED : D = (a * sin th * c0 P + c3 P / sin th) * (a * cos th * c0 P - c3 P * cos th / (sin th * sin th)) / SigmaS r th a
     + (B + (a * sin th * c0 P + c3 P / sin th) * (a * sin th * c0 P + c3 P / sin th)) * (a * a) * (cos th * sin th) / (SigmaS r th a * SigmaS r th a)).
  { rewrite <- (is_derive_unique _ _ _ D1). apply is_derive_unique. eapply is_derive_ext_loc; [|exact HF]. generalize (near_domain r a th HS Hs). apply filter_imp. intros x [X1 X2].
    assert (Hx : vupd (mkQ4 qt r th ph) 2 x = mkQ4 qt r x ph) by reflexivity. rewrite Hx. destruct (K qt r x ph X1 HD X2) as [Dx _].
    rewrite (hole_ham g a Q Hh (mkQ4 qt r x ph) P Dx). cbn [c1 c2]. rewrite kn_separated by assumption. unfold B. reflexivity. }
  assert (HV : 2 * Ham g (q t) P = (B + (a * sin th * c0 P + c3 P / sin th) * (a * sin th * c0 P + c3 P / sin th)) / SigmaS r th a).
  { rewrite Eq. rewrite (hole_ham g a Q Hh _ P Hd). cbn [c1 c2]. rewrite kn_separated by assumption. fold B. field. split; assumption. }
  set (X := a * sin th * c0 P + c3 P / sin th) in *.
  assert (Eth : c2 (q t) = th) by (rewrite Eq; reflexivity).
  unfold carter. set (h := fun u => Ham g (q u) (p u)) in *. set (x2 := fun u => c2 (q u)) in *. set (y0 := fun u => c0 (p u)) in *. set (y2 := fun u => c2 (p u)) in *. set (y3 := fun u => c3 (p u)) in *.
  change (is_derive (fun u => y2 u * y2 u + (a * sin (x2 u) * y0 u + y3 u / sin (x2 u)) * (a * sin (x2 u) * y0 u + y3 u / sin (x2 u)) - a * a * (cos (x2 u) * cos (x2 u)) * (2 * h u)) t 0).
  assert (Hx2 : x2 t = th) by exact Eth.
  assert (Hh2 : 2 * h t = (B + X * X) / SigmaS r th a) by exact HV.
  assert (G1 : is_derive x2 t (c2 P / SigmaS r th a)) by exact Th. assert (G2 : is_derive y2 t (- D)) by exact D2. assert (G3 : is_derive y0 t 0) by exact D02. assert (G4 : is_derive y3 t 0) by exact D32. assert (G5 : is_derive h t 0) by exact DH.
  assert (V0 : y0 t = c0 P) by reflexivity. assert (V2 : y2 t = c2 P) by reflexivity. assert (V3 : y3 t = c3 P) by reflexivity.
  clearbody x2 y0 y2 y3 h. clear Th D2 D02 D32 DH.
  assert (S1 : is_derive (fun u => sin (x2 u)) t (cos th * (c2 P / SigmaS r th a))). { rewrite <- Hx2 at 1. rewrite Rmult_comm. apply D_sin. exact G1. }
  assert (S2 : is_derive (fun u => cos (x2 u)) t (- sin th * (c2 P / SigmaS r th a))). { rewrite <- Hx2 at 1. rewrite Rmult_comm. apply D_cos. exact G1. }
  set (s := fun u => sin (x2 u)) in *. set (k := fun u => cos (x2 u)) in *. assert (T1 : is_derive s t (cos th * (c2 P / SigmaS r th a))) by exact S1. assert (T2 : is_derive k t (- sin th * (c2 P / SigmaS r th a))) by exact S2. clear S1 S2. rename T1 into S1, T2 into S2. assert (Vs : s t = sin th) by (unfold s; rewrite Hx2; reflexivity). assert (Vk : k t = cos th) by (unfold k; rewrite Hx2; reflexivity).
  change (is_derive (fun u => y2 u * y2 u + (a * s u * y0 u + y3 u / s u) * (a * s u * y0 u + y3 u / s u) - a * a * (k u * k u) * (2 * h u)) t 0). clearbody s k.
  assert (Ns : s t <> 0) by (rewrite Vs; exact Hs).
  assert (DX := D_plus _ _ _ _ _ (D_mult _ _ _ _ _ (D_scal s t a _ S1) G3) (D_div _ _ _ _ _ Ns G4 S1)). cbv beta in DX.
  refine (D_eq _ _ _ _ (D_minus _ _ _ _ _ (D_plus _ _ _ _ _ (D_mult _ _ _ _ _ G2 G2) (D_mult _ _ _ _ _ DX DX)) (D_mult _ _ _ _ _ (D_scal (fun u => k u * k u) t (a * a) _ (D_mult _ _ _ _ _ S2 S2)) (D_scal h t 2 _ G5))) _).
  cbv beta. rewrite Hh2, Vs, Vk, V0, V2, V3, ED. clearbody B. unfold X. field. split; assumption.
Qed.
Lemma carter_constant g a Q q p T : hole g a Q -> independent_of g 0 -> independent_of g 3 -> geodesic_on g q p T -> conserved (carterE a g) q p T.
Proof.
  intros Hh I0 I3 Hg t Ht. assert (W : well_formed g) by apply Hh. rewrite !(carterE_spec a g) by exact W.
  assert (D : forall u, 0 <= u <= T -> is_derive (fun v => carter a (q v) (p v) (2 * Ham g (q v) (p v))) u 0).
  { intros u Hu. destruct (Hg u Hu) as [A B]. apply (carter_derivative g a Q); [exact Hh|exact A|exact I0|exact I3|]. exact (locally_singleton _ _ B). }
  destruct (MVT_gen (fun v => carter a (q v) (p v) (2 * Ham g (q v) (p v))) 0 t (fun _ => 0)) as (c & Hc & E).
  - intros u Hu. rewrite Rmin_left, Rmax_right in Hu by lra. apply D. lra.
  - intros u Hu. rewrite Rmin_left, Rmax_right in Hu by lra. assert (Hu' : 0 <= u <= T) by lra. apply continuity_pt_filterlim. exact (D_continuous _ _ _ (D u Hu')).
  - cbv beta in E. lra.
Qed.
Lemma carter_defined g a Q q p : hole g a Q -> metric_defined g (q4nth q) -> defined_at (pt8 q p) (carterE a g).
Proof.
  intros Hh Hd. assert (W : well_formed g) by apply Hh. destruct q as [t r th ph]. destruct (proj2 Hh t r th ph Hd) as (_ & _ & Hs). assert (S := shell_defined g _ p W Hd).
  unfold carterE. cbv zeta. cbn [defined_at meaning]. cbn [pt8 Nat.ltb Nat.leb q4nth c2]. tauto.
Qed.
(** the black holes a Geodesic can be given by name, with their spin *)
Inductive named_hole : string -> list R -> metricP -> R -> Prop :=
| nh_sch prms : named_hole "Schwarzschild" prms schE 0
| nh_kerr a l : named_hole "Kerr" (a :: l) (kerrE a) a
| nh_kn a Q l : named_hole "KerrNewman" (a :: Q :: l) (kerrnewmanE a Q) a.
Lemma named_hole_spec s prms g a : named_hole s prms g a -> (exists call, resolve_metric (MName s) = Ok call /\ call prms = Ok g /\ call (resolve_params (MName s) prms) = Ok g) /\
  exists Q, hole g a Q /\ independent_of g 0 /\ independent_of g 3.
Proof.
  intros H. inversion H; subst s prms g a.
  - split; [exists sch_call; repeat split|]. exists 0. split; [exact hole_sch|]. split; intros i j Hi Hj; (destruct i as [|[|[|[|i]]]]; [| | | |lia]); (destruct j as [|[|[|[|j]]]]; [reflexivity..|lia]).
  - split; [exists kerr_call; repeat split|]. exists 0. split; [apply hole_kerr|]. split; intros i j Hi Hj; (destruct i as [|[|[|[|i]]]]; [| | | |lia]); (destruct j as [|[|[|[|j]]]]; [reflexivity..|lia]).
  - split; [exists kerrnewman_call; repeat split|]. exists Q. split; [apply hole_kn|]. split; intros i j Hi Hj; (destruct i as [|[|[|[|i]]]]; [| | | |lia]); (destruct j as [|[|[|[|j]]]]; [reflexivity..|lia]).
Qed.
(** exact motion *)
Theorem carter_exact s prms g a q p T : named_hole s prms g a -> geodesic_on g q p T ->
  forall t, 0 <= t <= T -> carter a (q t) (p t) (2 * Ham g (q t) (p t)) = carter a (q 0) (p 0) (2 * Ham g (q 0) (p 0)).
Proof.
  intros H Hg t Ht. destruct (named_hole_spec _ _ _ _ H) as (_ & Q & Hh & I0 & I3). assert (C := carter_constant g a Q q p T Hh I0 I3 Hg t Ht). rewrite !(carterE_spec a g) in C by apply Hh. exact C.
Qed.
(** computed rows *)
Theorem carter_drift s prms g a order w f n (q p : R -> V4) T : named_hole s prms g a ->
  integrator_of order (metricfun_of g) w = Ok f -> n = 2%nat \/ (order = 4 /\ n = 4)%nat -> 0 < T -> geodesic_on g q p T ->
  exists C N0, (0 < N0)%nat /\ forall N tl rtol atol suppress, (N0 <= N)%nat ->
  exists rows, calculate_trajectory g (q 0) (p 0) tl false (mkkw N (T / INR N) rtol atol order w suppress) = Ok (seq 0 N, rows) /\ length rows = N /\
  forall row, In row rows -> Rabs (carter a (fst row) (snd row) (2 * Ham g (fst row) (snd row)) - carter a (q 0) (p 0) (2 * Ham g (q 0) (p 0))) <= C * (T / INR N) ^ n.
Proof.
  intros H Hf Hn HT Hg. destruct (named_hole_spec _ _ _ _ H) as (_ & Q & Hh & I0 & I3). assert (W : well_formed g) by apply Hh. assert (Sy : symmetric_program g) by apply Hh.
  destruct (conserved_drift order g w f n (carterE a g) q p T Hf Hn W Sy HT Hg (carter_below a g W)) as (C & N0 & HN & K).
  { intros t Ht. destruct (Hg t Ht) as [D _]. exact (carter_defined g a Q _ _ Hh D). }
  { exact (carter_constant g a Q q p T Hh I0 I3 Hg). }
  exists C, N0. split; [exact HN|]. intros N tl rtol atol suppress HNN. destruct (K N tl rtol atol suppress HNN) as (rows & E & L & B). exists rows. split; [exact E|]. split; [exact L|]. intros row Hin. specialize (B row Hin).
  rewrite !(carterE_spec a g) in B by exact W. exact B.
Qed.
