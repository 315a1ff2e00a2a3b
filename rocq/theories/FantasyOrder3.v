(** Order of accuracy of the Fantasy integrator. *)
From Coq Require Import Reals List ZArith Lra Lia Bool.
From Coquelicot Require Import Coquelicot.
From Verif Require Import Base Calc DualModel DualSpec DualProofs DualDiff GeoUtilsModel GeoUtilsSpec GeoUtilsProofs
  FantasyModel FantasyProofs FantasyProofs2 FantasyProofs3 FantasyHam FantasySymp ProgCont WordSeries WordOrder FantasyOrder FantasyOrder2.
Import ListNotations.
Open Scope R_scope.

(** ---- expansion of the exact solution ---- *)
Definition solves (g : metricP) (w : R) (s : R -> state) : Prop :=
  exists r, 0 < r /\ forall t, Rabs t < r -> forall i, (i < 16)%nat -> is_derive (fun u => flat (s u) i) t (gsum (fun X => meaning (flat (s t)) (field (Hgen g w X) i))).
Lemma D_hsum k : forall (F : word -> R -> R) (F' : word -> R) t, (forall v, is_derive (F v) t (F' v)) -> is_derive (fun u => hsum k (fun v => F v u)) t (hsum k F').
Proof.
  induction k as [|k IH]; intros F F' t H; cbn [hsum]; [apply H|]. unfold gsum.
  apply (D_plus (fun u => hsum k (fun v => F (GA :: v) u) + hsum k (fun v => F (GB :: v) u)) (fun u => hsum k (fun v => F (GC :: v) u))).
  - apply (D_plus (fun u => hsum k (fun v => F (GA :: v) u)) (fun u => hsum k (fun v => F (GB :: v) u))); apply (IH (fun v => F (_ :: v)) (fun v => F' (_ :: v))); intros; apply H.
  - apply (IH (fun v => F (_ :: v)) (fun v => F' (_ :: v))). intros. apply H.
Qed.
Lemma hsum_scal k c : forall G, hsum k (fun v => c * G v) = c * hsum k G.
Proof. induction k as [|k IH]; intros; cbn [hsum]; [reflexivity|]. unfold gsum. rewrite !IH. ring. Qed.
Lemma hsum_plus k : forall G H, hsum k (fun v => G v + H v) = hsum k G + hsum k H.
Proof. induction k as [|k IH]; intros; cbn [hsum]; [reflexivity|]. unfold gsum. rewrite !IH. ring. Qed.
Lemma hsum_Rabs k : forall G M, (forall v, length v = k -> Rabs (G v) <= M) -> Rabs (hsum k G) <= 3 ^ k * M.
Proof.
  induction k as [|k IH]; intros G M H; cbn [hsum pow]; [rewrite Rmult_1_l; apply H; reflexivity|]. unfold gsum.
  assert (A := IH (fun v => G (GA :: v)) M ltac:(intros; apply H; cbn; congruence)).
  assert (B := IH (fun v => G (GB :: v)) M ltac:(intros; apply H; cbn; congruence)).
  assert (C := IH (fun v => G (GC :: v)) M ltac:(intros; apply H; cbn; congruence)).
  eapply Rle_trans; [apply Rabs_triang|]. assert (T := Rabs_triang (hsum k (fun v => G (GA :: v))) (hsum k (fun v => G (GB :: v)))). lra.
Qed.
Lemma wlie_path g w (s : R -> state) t0 v e : well_formed g -> hdef g (flat (s t0)) -> below 16 e = true -> defined_at (flat (s t0)) e ->
  (forall i, (i < 16)%nat -> is_derive (fun u => flat (s u) i) t0 (gsum (fun X => meaning (flat (s t0)) (field (Hgen g w X) i)))) ->
  is_derive (fun u => meaning (flat (s u)) (wlie g w v e)) t0 (gsum (fun X => meaning (flat (s t0)) (wlie g w (X :: v) e))).
Proof.
  intros Hwf Hd Hb He Hs. eapply D_eq.
  - apply (pd_path 16 (wlie g w v e) (wlie_below g w v e Hwf Hb) (fun i t => flat (s t) i) _ t0 Hs). apply wlie_defined; assumption.
  - unfold gsum. cbn [wlie]. unfold lie. rewrite !esum_meaning, <- !rsum_plus. apply rsum_ext. intros i Hi. cbn [meaning]. change (fun i0 : nat => flat (s t0) i0) with (flat (s t0)). ring.
Qed.
Lemma solves_near g w s : solves g w s -> forall r, 0 < r -> exists rho, 0 < rho /\ forall t, Rabs t < rho -> near 16 r (flat (s 0)) (flat (s t)).
Proof.
  intros (r0 & R0 & H0) r Hr.
  assert (K : forall i, (i < 16)%nat -> exists rho, 0 < rho /\ forall t, Rabs t < rho -> Rabs (flat (s t) i - flat (s 0) i) < r).
  { intros i Hi. assert (C := D_continuous _ _ _ (H0 0 ltac:(rewrite Rabs_R0; exact R0) i Hi)).
    destruct (C (fun y => Rabs (y - flat (s 0) i) < r)) as [eps He]. { exists (mkposreal r Hr). intros y Hy. exact Hy. }
    exists eps. split; [apply cond_pos|]. intros t Ht. apply He. unfold ball; cbn. unfold AbsRing_ball, abs, minus, plus, opp; cbn. rewrite Ropp_0, Rplus_0_r. exact Ht. }
  assert (U : forall n, (n <= 16)%nat -> exists rho, 0 < rho /\ forall t, Rabs t < rho -> forall i, (i < n)%nat -> Rabs (flat (s t) i - flat (s 0) i) < r).
  { induction n as [|n IH]; intros Hn; [exists 1; split; [lra|intros; lia]|].
    destruct (IH ltac:(lia)) as (r1 & R1 & H1). destruct (K n ltac:(lia)) as (r2 & R2 & H2). exists (Rmin r1 r2). split; [apply Rmin_pos; assumption|].
    intros t Ht i Hi. destruct (Nat.eq_dec i n) as [->|]; [apply H2; eapply Rlt_le_trans; [exact Ht|apply Rmin_r]|apply H1; [eapply Rlt_le_trans; [exact Ht|apply Rmin_l]|lia]]. }
  destruct (U 16%nat ltac:(lia)) as (rho & Hrho & H). exists rho. split; [exact Hrho|]. intros t Ht i Hi. apply H; assumption.
Qed.
Definition expcoef (v : word) : R := / INR (fact (length v)).
Lemma exact_expand g w (s : R -> state) e n : well_formed g -> solves g w s -> hdef g (flat (s 0)) -> below 16 e = true -> defined_at (flat (s 0)) e ->
  exists rho M, 0 < rho /\ 0 <= M /\ forall t, Rabs t < rho -> Rabs (meaning (flat (s t)) e - series g w expcoef n t (s 0) e) <= M * Rabs t ^ S n.
Proof.
  intros Hwf Hsol Hd Hb He.
  destruct (hdef_near g (s 0) Hwf Hd) as (r1 & R1 & H1).
  destruct (prog_near 16 e (flat (s 0)) Hb He 1 ltac:(lra)) as (r2 & R2 & H2).
  destruct (words_uniform (fun v rho M => forall y, near 16 rho (flat (s 0)) y -> Rabs (meaning y (wlie g w v e)) <= M)) with (n := S n) as (r3 & M & R3 & HM & H3).
  { intros v a b A B HP Hab HAB y Hy. eapply Rle_trans; [apply HP; eapply near_le; [exact Hab|exact Hy]|exact HAB]. }
  { intros v. destruct (prog_bounded 16 (wlie g w v e) (flat (s 0))) as (r & A & Hr & HA & H). { apply wlie_below; assumption. } { apply wlie_defined; assumption. }
    exists r, A. split; [exact Hr|]. split; [exact HA|]. intros y Hy. apply H. exact Hy. }
  assert (Hsol' := Hsol). destruct Hsol' as (r0 & R0 & H0).
  destruct (solves_near g w s Hsol (Rmin r1 (Rmin r2 r3))) as (rho & Hrho & Hn). { repeat apply Rmin_pos; assumption. }
  exists (Rmin r0 rho), (3 ^ S n * M). split; [apply Rmin_pos; assumption|]. split; [apply Rmult_le_pos; [apply pow_le; lra|exact HM]|].
  intros t Ht.
  assert (Hin : forall u, Rabs u < Rmin r0 rho -> near 16 r1 (flat (s 0)) (flat (s u)) /\ near 16 r2 (flat (s 0)) (flat (s u)) /\ near 16 r3 (flat (s 0)) (flat (s u))).
  { intros u Hu. assert (N := Hn u ltac:(eapply Rlt_le_trans; [exact Hu|apply Rmin_r])).
    split; [|split]; (eapply near_le; [|exact N]); [apply Rmin_l|eapply Rle_trans; [apply Rmin_r|apply Rmin_l]|eapply Rle_trans; [apply Rmin_r|apply Rmin_r]]. }
  assert (T := taylor_bound n (fun k u => hsum k (fun v => meaning (flat (s u)) (wlie g w v e))) (Rmin r0 rho) (3 ^ S n * M)).
  cbn beta in T.
  assert (E : series g w expcoef n t (s 0) e = rsum (S n) (fun k => t ^ k / INR (fact k) * hsum k (fun v => meaning (flat (s 0)) (wlie g w v e)))).
  { unfold series. rewrite wsum_hsum. apply rsum_ext. intros k Hk. rewrite <- hsum_scal. apply hsum_ext. intros v Hv. unfold expcoef. rewrite Hv. unfold Rdiv. ring. }
  rewrite E. change (meaning (flat (s t)) e) with (hsum 0 (fun v => meaning (flat (s t)) (wlie g w v e))).
  apply T; [apply Rmult_le_pos; [apply pow_le; lra|exact HM]| | |exact Ht].
  - intros k u Hk Hu. destruct (Hin u Hu) as (N1 & N2 & N3).
    assert (G : hsum (S k) (fun v => meaning (flat (s u)) (wlie g w v e)) = hsum k (fun v => gsum (fun X => meaning (flat (s u)) (wlie g w (X :: v) e)))).
    { cbn [hsum]. unfold gsum. rewrite !hsum_plus. reflexivity. }
    rewrite G. apply (D_hsum k (fun v u => meaning (flat (s u)) (wlie g w v e))). intros v.
    apply wlie_path; try assumption; [apply H1; exact N1|apply H2; exact N2|]. intros i Hi. apply H0; [eapply Rlt_le_trans; [exact Hu|apply Rmin_l]|exact Hi].
  - intros u Hu. apply hsum_Rabs. intros v Hv. apply H3; [lia|]. apply Hin. exact Hu.
Qed.

(** ---- the integrator is the composition ---- *)
Definition stage_of (d : R) (p : gen * R) : stage := match fst p with GA => SA (snd p * d) | GB => SB (snd p * d) | GC => SC (snd p * d) end.
Lemma step_stages_composed ws d : step_stages ws d = map (stage_of d) (composed ws).
Proof.
  induction ws as [|z ws IH]; cbn [step_stages composed]; [reflexivity|]. rewrite map_app, <- IH. f_equal.
  unfold ord2_stages, scale, strang. cbn [map]. unfold stage_of. cbn [fst snd].
  replace (z * / 2 * d) with (/ 2 * (d * z)) by ring. replace (z * 1 * d) with (d * z) by ring. reflexivity.
Qed.
Lemma compose_map g w l d s : stages_map g w (map (stage_of d) l) s = compose g w l d s.
Proof. revert s; induction l as [|[X a] l IH]; intros s; cbn [map stages_map compose]; [reflexivity|]. rewrite IH. destruct X; reflexivity. Qed.
Lemma hdef_stage g a s : well_formed g -> hdef g (flat s) -> stage_ok g a s.
Proof.
  intros Hwf [A B]. destruct a; cbn [stage_ok]; [| |exact I].
  - apply (metric_defined_ext g (fun i => flat s (0 + i)%nat)); [exact Hwf|apply q4_cases; reflexivity|]. apply hamE_defined_inv with (pb := 12%nat). exact A.
  - apply (metric_defined_ext g (fun i => flat s (8 + i)%nat)); [exact Hwf|apply q4_cases; reflexivity|]. apply hamE_defined_inv with (pb := 4%nat). exact B.
Qed.
Lemma regular_small g w l (s0 : state) : well_formed g -> symmetric_program g -> hdef g (flat s0) ->
  exists rho, 0 < rho /\ forall d s, Rabs d < rho -> near 16 rho (flat s0) (flat s) -> regular g w (map (stage_of d) l) s.
Proof.
  intros Hwf Hsym Hd. destruct (hdef_near g s0 Hwf Hd) as (r0 & R0 & H0). induction l as [|[X a] l IH]; cbn [map regular].
  - exists 1. split; [lra|]. intros; exact I.
  - destruct IH as (r1 & R1 & H1). destruct (flow_near g w X s0 Hwf Hd r1 R1) as (r2 & R2 & H2). destruct (small_scale a r2 R2) as (r3 & R3 & H3).
    exists (Rmin r0 (Rmin r1 (Rmin r2 r3))). split; [repeat apply Rmin_pos; assumption|]. intros d s Hds Hs.
    set (m := Rmin r0 (Rmin r1 (Rmin r2 r3))) in *.
    assert (L0 : m <= r0) by apply Rmin_l. assert (L1 : m <= r1) by (unfold m; eapply Rle_trans; [apply Rmin_r|apply Rmin_l]).
    assert (L2 : m <= r2) by (unfold m; eapply Rle_trans; [apply Rmin_r|eapply Rle_trans; [apply Rmin_r|apply Rmin_l]]).
    assert (L3 : m <= r3) by (unfold m; eapply Rle_trans; [apply Rmin_r|eapply Rle_trans; [apply Rmin_r|apply Rmin_r]]).
    assert (OK : stage_ok g (stage_of d (X, a)) s) by (apply hdef_stage; [exact Hwf|apply H0; eapply near_le; eassumption]).
    split; [exact OK|]. rewrite (stage_map_ok g w _ _ Hwf Hsym OK).
    replace (stage_map g w (stage_of d (X, a)) s) with (gflow g w X (a * d) s) by (destruct X; reflexivity).
    apply H1; [lra|]. apply H2; [apply H3; lra|eapply near_le; eassumption].
Qed.
Lemma step_compose order g w f (s0 : state) : integrator_of order (metricfun_of g) w = Ok f -> well_formed g -> symmetric_program g -> hdef g (flat s0) ->
  exists rho, 0 < rho /\ forall d, Rabs d < rho -> f d s0 = Ok (compose g w (composed (weights order)) d s0).
Proof.
  intros Hf Hwf Hsym Hd. destruct (regular_small g w (composed (weights order)) s0 Hwf Hsym Hd) as (rho & Hr & H). exists rho. split; [exact Hr|]. intros d Hds.
  rewrite (order_is_weights order _ _ _ Hf), <- step_run, step_stages_composed, <- compose_map.
  assert (R := H d s0 Hds (near_self 16 rho (flat s0) Hr)). revert R. generalize (map (stage_of d) (composed (weights order))). intros l. revert s0 Hd H.
  clear -Hwf Hsym. intros s0 _ _. revert s0. induction l as [|a l IH]; intros s Hr; cbn [run_stages stages_map]; [reflexivity|].
  cbn [regular] in Hr. destruct Hr as [OK Hr]. fold (stage_ok g a s) in OK. rewrite (stage_map_ok g w a s Hwf Hsym OK) in *. cbn [bindR]. apply IH. exact Hr.
Qed.

(** ---- geodesics ---- *)
(** (q, p) solves Hamilton's equations of 1/2 g^ij(q) p_i p_j for parameters around 0 *)
Definition geodesic (g : metricP) (q p : R -> V4) : Prop :=
  locally 0 (fun t => forall k, (k < 4)%nat ->
    is_derive (fun u => q4nth (q u) k) t (q4nth (mv (metric_meaning g (q4nth (q t))) (p t)) k)
    /\ exists D, is_derive (fun x => Ham g (vupd (q t) k x) (p t)) (q4nth (q t) k) D /\ is_derive (fun u => q4nth (p u) k) t (- D)).
(** both copies at the same point: the initial data built by the integrator *)
Definition doubled (q p : V4) : state := mkQ4 q p q p.
Lemma doubled_hdef g q p : well_formed g -> metric_defined g (q4nth q) -> hdef g (flat (doubled q p)).
Proof.
  intros Hwf H. split; apply hamE_defined; (apply (metric_defined_ext g (q4nth q)); [exact Hwf|apply q4_cases; reflexivity|exact H]).
Qed.
Lemma geodesic_solves g w q p : well_formed g -> symmetric_program g -> metric_defined g (q4nth (q 0)) -> geodesic g q p ->
  solves g w (fun t => doubled (q t) (p t)).
Proof.
  intros Hwf Hsym Hd Hg.
  assert (L : locally 0 (fun t => metric_defined g (q4nth (q t)))).
  { apply metric_defined_locally; [|exact Hd]. intros j Hj. destruct Hg as [eps Hg]. destruct (Hg 0 (ball_center 0 eps) j Hj) as [A _]. eexists. exact A. }
  destruct (loc_and _ _ _ L Hg) as [eps H]. exists eps. split; [apply cond_pos|]. intros t Ht.
  destruct (H t) as [Hdt Hgt]. { unfold ball; cbn. unfold AbsRing_ball, abs, minus, plus, opp; cbn. rewrite Ropp_0, Rplus_0_r. exact Ht. }
  clear H L Hg Ht.
  destruct (ham_parts g (q t) (p t) Hwf Hsym Hdt) as (grad & Hgr & _ & Hk).
  set (x := flat (doubled (q t) (p t))) in *. set (m := mv (metric_meaning g (q4nth (q t))) (p t)) in *.
  destruct (Hk x 0%nat 12%nat) as [_ PA]. { apply q4_cases; reflexivity. } { apply q4_cases; reflexivity. } { lia. } { lia. } { lia. }
  destruct (Hk x 8%nat 4%nat) as [_ PB]. { apply q4_cases; reflexivity. } { apply q4_cases; reflexivity. } { lia. } { lia. } { lia. }
  assert (DQ : forall k, (k < 4)%nat -> is_derive (fun u => q4nth (q u) k) t (q4nth m k)) by (intros k Hk'; apply Hgt; exact Hk').
  assert (DP : forall k, (k < 4)%nat -> is_derive (fun u => q4nth (p u) k) t (- q4nth grad k)).
  { intros k Lk. destruct (Hgt k Lk) as [_ (D & HD & Hp)]. destruct (Ham_dq g (q t) (p t) k Hwf Hsym Hdt Lk) as (J & HJ & HD').
    assert (E : D = q4nth grad k).
    { rewrite (D_unique _ _ _ _ HD HD'). clear -HJ Hgr Lk. unfold ham_grad, part_ham_flow, metricfun_of, q4seq, q4tab in Hgr. cbn [gjac c0 c1 c2 c3] in Hgr.
      destruct (jacobian_g g (q t) (Z.of_nat 0)) as [J0|] eqn:E0; [|discriminate]. destruct (jacobian_g g (q t) (Z.of_nat 1)) as [J1|] eqn:E1; [|discriminate].
      destruct (jacobian_g g (q t) (Z.of_nat 2)) as [J2|] eqn:E2; [|discriminate]. destruct (jacobian_g g (q t) (Z.of_nat 3)) as [J3|] eqn:E3; [|discriminate].
      cbn [bindR] in Hgr. apply Ok_inj in Hgr. subst grad. destruct k as [|[|[|[|k]]]]; [| | | |lia].
      - rewrite HJ in E0. apply Ok_inj in E0. subst J0. reflexivity.
      - rewrite HJ in E1. apply Ok_inj in E1. subst J1. reflexivity.
      - rewrite HJ in E2. apply Ok_inj in E2. subst J2. reflexivity.
      - rewrite HJ in E3. apply Ok_inj in E3. subst J3. reflexivity. }
    rewrite <- E. exact Hp. }
  assert (ZA : forall k, (4 <= k < 12)%nat -> meaning x (pd k (HA g)) = 0) by (intros; apply pd_unmentioned, hamE_mentions; [exact Hwf|lia|lia]).
  assert (ZB : forall k, (k < 4 \/ 12 <= k)%nat -> meaning x (pd k (HB g)) = 0) by (intros; apply pd_unmentioned, hamE_mentions; [exact Hwf|lia|lia]).
  assert (ZC : forall i, (i < 16)%nat -> meaning x (field (HC w) i) = 0).
  { intros i Hi. unfold x. rewrite HC_field by exact Hi. revert i Hi. apply lt16; cbv [flat doubled Nat.div Nat.divmod Nat.modulo fst snd Nat.sub Nat.add q4nth c0 c1 c2 c3]; ring. }
  intros i Hi. unfold gsum. cbn [Hgen]. rewrite ZC by exact Hi. unfold field. cbn [meaning]. clear ZC Hgr Hgt Hk.
  assert (A : forall k, (k < 4)%nat -> meaning x (pd k (HA g)) = q4nth grad k /\ meaning x (pd (12 + k) (HA g)) = q4nth m k) by (intros k Lk; destruct (PA k Lk); split; symmetry; assumption).
  assert (B : forall k, (k < 4)%nat -> meaning x (pd (8 + k) (HB g)) = q4nth grad k /\ meaning x (pd (4 + k) (HB g)) = q4nth m k) by (intros k Lk; destruct (PB k Lk); split; symmetry; assumption).
  clear PA PB. pose (a := fun k => meaning x (pd k (HA g))). pose (b := fun k => meaning x (pd k (HB g))).
  change (forall k, (k < 4)%nat -> a k = q4nth grad k /\ a (12 + k)%nat = q4nth m k) in A.
  change (forall k, (k < 4)%nat -> b (8 + k)%nat = q4nth grad k /\ b (4 + k)%nat = q4nth m k) in B.
  change (forall k, (4 <= k < 12)%nat -> a k = 0) in ZA. change (forall k, (k < 4 \/ 12 <= k)%nat -> b k = 0) in ZB.
  change (is_derive (fun u => flat (doubled (q u) (p u)) i) t (sgn i * a (conj i) + sgn i * b (conj i) + 0)).
  clearbody a b. clear -DQ DP ZA ZB A B Hi.
  assert (C : exists k, (k < 4)%nat /\ (i = k \/ i = 4 + k \/ i = 8 + k \/ i = 12 + k)%nat).
  { exists (i mod 4)%nat. split; [apply Nat.mod_upper_bound; lia|]. revert i Hi. apply lt16; vm_compute; tauto. }
  destruct C as (k & Lk & C). destruct (A k Lk) as [A1 A2]. destruct (B k Lk) as [B1 B2]. specialize (DQ k Lk). specialize (DP k Lk).
  assert (FQ : forall s, flat s k = q4nth (q1 s) k /\ flat s (4 + k) = q4nth (p1 s) k /\ flat s (8 + k) = q4nth (q2 s) k /\ flat s (12 + k) = q4nth (p2 s) k).
  { intros s. clear -Lk. revert k Lk. apply q4_cases; repeat split. }
  assert (CJ : conj k = (4 + k)%nat /\ conj (4 + k) = k /\ conj (8 + k) = (12 + k)%nat /\ conj (12 + k) = (8 + k)%nat /\ sgn k = 1 /\ sgn (4 + k) = -1 /\ sgn (8 + k) = 1 /\ sgn (12 + k) = -1).
  { clear -Lk. revert k Lk. apply q4_cases; repeat split. }
  destruct CJ as (C1 & C2 & C3 & C4 & S1 & S2 & S3 & S4).
  destruct C as [C|[C|[C|C]]]; subst i.
  - rewrite C1, S1, B2, (ZA (4 + k)%nat) by lia. apply (D_ext (fun u => q4nth (q u) k)); [intros u; symmetry; apply FQ|]. eapply D_eq; [exact DQ|ring].
  - rewrite C2, S2, A1, (ZB k) by lia. apply (D_ext (fun u => q4nth (p u) k)); [intros u; symmetry; apply FQ|]. eapply D_eq; [exact DP|ring].
  - rewrite C3, S3, A2, (ZB (12 + k)%nat) by lia. apply (D_ext (fun u => q4nth (q u) k)); [intros u; symmetry; apply FQ|]. eapply D_eq; [exact DQ|ring].
  - rewrite C4, S4, B1, (ZA (8 + k)%nat) by lia. apply (D_ext (fun u => q4nth (p u) k)); [intros u; symmetry; apply FQ|]. eapply D_eq; [exact DP|ring].
Qed.

(** ---- local truncation error ---- *)
(** a step started on a geodesic stays within M |delta|^(n+1) of it *)
Definition local_order (g : metricP) (f : R -> state -> Res state) (n : nat) : Prop :=
  forall q p : R -> V4, metric_defined g (q4nth (q 0)) -> geodesic g q p ->
  exists r M, 0 < r /\ forall delta, Rabs delta < r -> exists s', f delta (doubled (q 0) (p 0)) = Ok s' /\
    forall i j, (i < 4)%nat -> (j < 4)%nat -> Rabs (mnth s' i j - mnth (doubled (q delta) (p delta)) i j) <= M * Rabs delta ^ S n.

Lemma order_condition order g w f n : integrator_of order (metricfun_of g) w = Ok f -> well_formed g -> symmetric_program g ->
  (forall v, (length v <= n)%nat -> coef (composed (weights order)) v = expcoef v) -> local_order g f n.
Proof.
  intros Hf Hwf Hsym Hc q p Hd Hg. set (s0 := doubled (q 0) (p 0)).
  assert (Hs := geodesic_solves g w q p Hwf Hsym Hd Hg). assert (Hh : hdef g (flat s0)) by (apply doubled_hdef; assumption).
  destruct (step_compose order g w f s0 Hf Hwf Hsym Hh) as (r0 & R0 & H0).
  assert (K : forall i, (i < 16)%nat -> exists r M, 0 < r /\ 0 <= M /\ forall d, Rabs d < r -> Rabs (flat (compose g w (composed (weights order)) d s0) i - flat (doubled (q d) (p d)) i) <= M * Rabs d ^ S n).
  { intros i Hi. assert (Hb : below 16 (EVar i) = true) by (cbn [below]; apply Nat.ltb_lt; exact Hi).
    destruct (compose_expand g w s0 (EVar i) n Hwf Hh Hb I (composed (weights order))) as (r1 & M1 & R1 & HM1 & H1).
    destruct (exact_expand g w (fun t => doubled (q t) (p t)) (EVar i) n Hwf Hs Hh Hb I) as (r2 & M2 & R2 & HM2 & H2).
    exists (Rmin r1 r2), (M1 + M2). split; [apply Rmin_pos; assumption|]. split; [lra|]. intros d Hds.
    assert (A := H1 d s0 ltac:(eapply Rlt_le_trans; [exact Hds|apply Rmin_l]) (near_self 16 r1 _ R1)).
    assert (B := H2 d ltac:(eapply Rlt_le_trans; [exact Hds|apply Rmin_r])). cbn [meaning] in A, B. fold s0 in B.
    assert (E : series g w (coef (composed (weights order))) n d s0 (EVar i) = series g w expcoef n d s0 (EVar i)).
    { unfold series. apply wsum_ext. intros v Hv. rewrite (Hc v Hv). reflexivity. }
    rewrite E in A. set (S0 := series g w expcoef n d s0 (EVar i)) in *. 
    replace (flat (compose g w (composed (weights order)) d s0) i - flat (doubled (q d) (p d)) i) with ((flat (compose g w (composed (weights order)) d s0) i - S0) - (flat (doubled (q d) (p d)) i - S0)) by ring.
    eapply Rle_trans; [apply Rabs_triang|]. rewrite Rabs_Ropp. lra. }
  assert (U : forall m, (m <= 16)%nat -> exists r M, 0 < r /\ 0 <= M /\ forall d, Rabs d < r -> forall i, (i < m)%nat -> Rabs (flat (compose g w (composed (weights order)) d s0) i - flat (doubled (q d) (p d)) i) <= M * Rabs d ^ S n).
  { induction m as [|m IH]; intros Hm; [exists 1, 0; split; [lra|split; [lra|intros; lia]]|].
    destruct (IH ltac:(lia)) as (r1 & M1 & R1 & HM1 & H1). destruct (K m ltac:(lia)) as (r2 & M2 & R2 & HM2 & H2). exists (Rmin r1 r2), (M1 + M2). split; [apply Rmin_pos; assumption|]. split; [lra|].
    intros d Hds i Hi. assert (P : 0 <= Rabs d ^ S n) by apply pow_le, Rabs_pos. destruct (Nat.eq_dec i m) as [->|].
    - eapply Rle_trans; [apply H2; eapply Rlt_le_trans; [exact Hds|apply Rmin_r]|]. apply Rmult_le_compat_r; [exact P|lra].
    - eapply Rle_trans; [apply H1; [eapply Rlt_le_trans; [exact Hds|apply Rmin_l]|lia]|]. apply Rmult_le_compat_r; [exact P|lra]. }
  destruct (U 16%nat ltac:(lia)) as (r1 & M1 & R1 & HM1 & H1). exists (Rmin r0 r1), M1. split; [apply Rmin_pos; assumption|]. intros d Hds.
  eexists. split; [apply H0; eapply Rlt_le_trans; [exact Hds|apply Rmin_l]|]. intros i j Hi Hj.
  assert (Q := H1 d ltac:(eapply Rlt_le_trans; [exact Hds|apply Rmin_r]) (4 * i + j)%nat ltac:(lia)).
  assert (FM : forall s, flat s (4 * i + j) = mnth s i j).
  { intros s. clear -Hi Hj. unfold flat, mnth. rewrite (Nat.mul_comm 4 i), Nat.div_add_l, (Nat.div_small j 4), Nat.add_0_r by lia.
    rewrite Nat.add_comm, Nat.mod_add, Nat.mod_small by lia. reflexivity. }
  rewrite !FM in Q. exact Q.
Qed.

Lemma powsum_1 ws : powsum 1 ws = wsum1 ws.
Proof. induction ws as [|z ws IH]; [reflexivity|]. cbn [powsum fold_right wsum1]. fold (powsum 1 ws) (wsum1 ws). rewrite IH. ring. Qed.
Lemma powsum_3 ws : powsum 3 ws = wsum3 ws.
Proof. reflexivity. Qed.
Lemma second_order_condition ws : wsum1 ws = 1 -> forall v, (length v <= 2)%nat -> coef (composed ws) v = expcoef v.
Proof.
  intros W v Hv. unfold expcoef. destruct v as [|X [|Y [|Z v]]]; cbn [length] in *; try lia.
  - rewrite composed_0. cbn. field.
  - rewrite composed_1, W. cbn. field.
  - rewrite composed_2, W. cbn. field.
Qed.
Lemma supported_orders order G w f : integrator_of order G w = Ok f -> In order [2; 4; 6; 8]%nat.
Proof. intros H. destruct order as [|[|[|[|[|[|[|[|[|?]]]]]]]]]; cbn in H; try discriminate; cbn; tauto. Qed.
Lemma order_2_accuracy order g w f : integrator_of order (metricfun_of g) w = Ok f -> well_formed g -> symmetric_program g -> local_order g f 2.
Proof.
  intros Hf Hwf Hsym. apply (order_condition order g w f 2 Hf Hwf Hsym). apply second_order_condition. rewrite <- powsum_1. apply weights_sum. eapply supported_orders. exact Hf.
Qed.
Lemma fourth_order_condition v : (length v <= 4)%nat -> coef (composed (weights 4)) v = expcoef v.
Proof.
  intros Hv.
  assert (W1 : wsum1 (weights 4) = 1) by (rewrite <- powsum_1; apply weights_sum; cbn; tauto).
  assert (W3 : wsum3 (weights 4) = 0) by (rewrite <- powsum_3; apply weights_4_cubic).
  destruct (le_lt_dec (length v) 2) as [L|L]; [apply second_order_condition; assumption|].
  unfold expcoef. destruct v as [|X [|Y [|Z [|T [|? ?]]]]]; cbn [length] in *; try lia.
  - rewrite composed_3, W1, W3. cbn. field.
  - revert W1 W3. unfold weights, triple_weights. cbn [map app]. set (z1 := snd (Z01 4) * 1). set (z0 := fst (Z01 4) * 1). clearbody z1 z0. intros W1 W3.
    rewrite triple_4; [cbn; field| |].
    + unfold wsum1 in W1. cbn [fold_right] in W1. lra.
    + unfold wsum3 in W3. cbn [fold_right] in W3. lra.
Qed.
Lemma order_4_accuracy g w f : integrator_of 4 (metricfun_of g) w = Ok f -> well_formed g -> symmetric_program g -> local_order g f 4.
Proof.
  intros Hf Hwf Hsym. apply (order_condition 4 g w f 4 Hf Hwf Hsym). exact fourth_order_condition.
Qed.
