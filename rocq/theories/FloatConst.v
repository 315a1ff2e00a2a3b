(** C126: Carter's constant and the angular momentum vector along the trajectory the SI classes compute in floating point. *)
From Coq Require Import String Reals List ZArith Lra Lia Bool.
From Coquelicot Require Import Coquelicot.
From Verif Require Import Base Calc DualModel DualSpec DualDiff GeoUtilsModel CoordModel ConvModel ConvProofs2 ProgCont FantasyGlobal FantasyGlobal2 RKModel RKGlobal RKProg MetricModel MetricSpec MetricProofs MetricProofs2 MetricProofs3 MetricProofs4 MetricProofs5 MetricProofs6 MetricProofs7 MetricProofs8 MetricKilling MetricHamilton2 MetricUnify MetricRK PicardProg FloatModel FloatTrack FloatRK FloatRKG FloatMetricModel FloatMetric FloatMetric2 FloatMetric3 FloatMetric4 FloatMetric5 FloatMetric6 FloatMetric7 FloatMetric8.
From Verif Require Import FloatVel FloatFlow FloatInv.
From Verif Require Import MetricCarter.
Import ListNotations.
Open Scope R_scope.

(** like [kept] for a quantity Q of position, metric and velocity *)
Definition kept_at (K Kin c : R) (covE : fenv -> V4 -> Res M4) (fE : fenv -> R -> list R -> Res (list R)) (cov : V4 -> Res M4) (x v : V4) (T : R) (Q : V4 -> M4 -> V4 -> R) (q0 : R) : Prop :=
  exists C r, 0 <= C /\ 0 < r /\ forall u e x' v', 0 <= u -> good K u e -> near4 (Kin * u) x' x -> near4 (Kin * u) v' v ->
  forall h N tb, 0 < h <= r -> INR N * h <= T -> u / h <= r -> forall k, (k <= N)%nat ->
  exists s g, flowA e c (covE e) (fE e) x' v' tb h k = Ok s /\ cov (state_pos s) = Ok g /\ Rabs (Q (state_pos s) g (state_vel s) - q0) <= C * (h ^ 4 + u / h).

Lemma kept_at_gen K Kin c covE fE cov x v X W T (Q : V4 -> M4 -> V4 -> R) q0 eD eQ :
  below 9 eD = true -> below 9 eQ = true -> 0 < T ->
  (forall t, 0 <= t <= T -> (forall i, (i < 4)%nat -> continuous (fun s => q4nth (X s) i) t /\ continuous (fun s => q4nth (W s) i) t) /\ qdef eD (X t) (W t) /\ qdef eQ (X t) (W t) /\ qval eQ (X t) (W t) = q0) ->
  (forall x v, qdef eD x v -> exists g, cov x = Ok g /\ Q x g v = qval eQ x v) ->
  flow_rounded K Kin c covE fE x v X W T -> kept_at K Kin c covE fE cov x v T Q q0.
Proof.
  intros BD BQ HT HA HS (C & r & HC & Hr & HF).
  destruct (along_compact eD X W T BD HT) as (rho1 & L1 & Hr1 & _ & H1). { intros t Ht. destruct (HA t Ht) as (A & B & _). split; assumption. }
  destruct (along_compact eQ X W T BQ HT) as (rho2 & L & Hr2 & HL & H2). { intros t Ht. destruct (HA t Ht) as (A & _ & B & _). split; assumption. }
  set (rho := Rmin rho1 rho2). assert (Hrho : 0 < rho) by (apply Rmin_pos; assumption). assert (Q1 := Rmin_l rho1 rho2). assert (Q2 := Rmin_r rho1 rho2). fold rho in Q1, Q2.
  set (d := rho / (4 * (C + 1))). assert (Pd : 0 < d) by (apply Rdiv_lt_0_compat; lra).
  exists (L * C), (Rmin r (Rmin 1 d)). split; [apply Rmult_le_pos; assumption|]. split; [repeat apply Rmin_pos; lra|].
  intros u e x' v' Hu He Hx Hv h N tb Hh HN Huh k Hk.
  assert (M1 := Rmin_l r (Rmin 1 d)). assert (M2 := Rmin_r r (Rmin 1 d)). assert (M3 := Rmin_l 1 d). assert (M4 := Rmin_r 1 d).
  destruct (HF u e x' v' Hu He Hx Hv h N tb ltac:(lra) HN ltac:(lra) k Hk) as (s & Es & _ & Bs).
  assert (Ht : 0 <= INR k * h <= T). { split; [apply Rmult_le_pos; [apply pos_INR|lra]|]. assert (INR k <= INR N) by (apply le_INR; exact Hk). apply Rle_trans with (INR N * h); [apply Rmult_le_compat_r; lra|exact HN]. }
  set (t := INR k * h) in *. set (eps := C * (h ^ 4 + u / h)) in *.
  assert (Hp : h ^ 4 <= d). { replace (h ^ 4) with (h * h ^ 3) by ring. assert (Z : h ^ 3 <= 1) by (rewrite <- (pow1 3); apply pow_incr; lra). assert (Z0 : 0 <= h ^ 3) by (apply pow_le; lra). nra. }
  assert (Heps : eps < rho).
  { unfold eps. apply Rle_lt_trans with (C * (2 * d)); [apply Rmult_le_compat_l; lra|]. unfold d. apply Rmult_lt_reg_r with (4 * (C + 1)); [lra|].
    replace (C * (2 * (rho / (4 * (C + 1)))) * (4 * (C + 1))) with (2 * C * rho) by (field; lra). nra. }
  assert (NX : near4 eps (state_pos s) (X t)) by (intros i Hi; destruct (Bs i Hi) as [B _]; do 4 (destruct i as [|i]; [exact B|]); lia).
  assert (NV : near4 eps (state_vel s) (W t)) by (intros i Hi; destruct (Bs i Hi) as [_ B]; do 4 (destruct i as [|i]; [exact B|]); lia).
  destruct (H1 t Ht _ _ eps ltac:(lra) NX NV) as [D1 _]. destruct (H2 t Ht _ _ eps ltac:(lra) NX NV) as [_ D2].
  destruct (HS _ _ D1) as (g & Eg & EQ). exists s, g. split; [exact Es|]. split; [exact Eg|]. rewrite EQ.
  destruct (HA t Ht) as (_ & _ & _ & E0). rewrite E0 in D2. rewrite Rmult_assoc. exact D2.
Qed.

Section BL.
Variables (c G Cc : R) (o : mobj).
Hypothesis Hc : 0 < c.
Let al := al_of c G o.
Let lo := lowE c G o.
Definition carterP : pexpr :=
  let s := ESin (EVar 3) in let B := EAdd (EDiv (EMul (EMul (EConst al) s) (lo 0)) (EConst c)) (EDiv (lo 3) s) in
  EAdd (EAdd (EMul (lo 2) (lo 2)) (EMul B B)) (EMul (EMul (EConst (al * al)) (EMul (ECos (EVar 3)) (ECos (EVar 3)))) (normE c G o)).
Definition LxP : pexpr := ESub (ENeg (EMul (ESin (EVar 4)) (lo 2))) (EMul (EMul (ECos (EVar 4)) (EDiv (ECos (EVar 3)) (ESin (EVar 3)))) (lo 3)).
Definition LyP : pexpr := ESub (EMul (ECos (EVar 4)) (lo 2)) (EMul (EMul (ESin (EVar 4)) (EDiv (ECos (EVar 3)) (ESin (EVar 3)))) (lo 3)).
Lemma progs_below : below 9 carterP = true /\ below 9 LxP = true /\ below 9 LyP = true.
Proof.
  unfold carterP, LxP, LyP. cbv zeta. cbn [below].
  assert (B : forall mu, (mu < 4)%nat -> below 9 (lo mu) = true) by (intros mu Hm; apply lowE_below; exact Hm).
  rewrite (B 0%nat), (B 2%nat), (B 3%nat) by lia. assert (N : below 9 (normE c G o) = true) by apply normE_below. rewrite N. repeat split; reflexivity.
Qed.
Lemma ang_val x w : meaning (point 0 (join x w)) (EVar 3) = c2 x /\ meaning (point 0 (join x w)) (EVar 4) = c3 x.
Proof. split; reflexivity. Qed.
Lemma carter_val x w g : MetricModel.kn_cov c G Cc o x = Ok g -> carter_si c al x g w = qval carterP x w.
Proof.
  intros E. unfold carter_si, carterP, qval. cbv zeta. cbn [meaning]. rewrite <- (norm_val c G Cc o x w g E : _ = meaning (point 0 (join x w)) (normE c G o)).
  assert (L : forall mu, (mu < 4)%nat -> meaning (point 0 (join x w)) (lo mu) = low mu g w) by (intros mu Hm; symmetry; apply (low_val c G Cc o); assumption).
  rewrite !L by lia. reflexivity.
Qed.
Lemma L_val x w g : MetricModel.kn_cov c G Cc o x = Ok g -> Lx_si x g w = qval LxP x w /\ Ly_si x g w = qval LyP x w.
Proof.
  intros E. unfold Lx_si, Ly_si, LxP, LyP, qval. cbn [meaning].
  assert (L : forall mu, (mu < 4)%nat -> meaning (point 0 (join x w)) (lo mu) = low mu g w) by (intros mu Hm; symmetry; apply (low_val c G Cc o); assumption).
  rewrite !L by lia. split; reflexivity.
Qed.
Lemma progs_def x w : bl_dom c G o x -> sin (c2 x) <> 0 -> qdef carterP x w /\ qdef LxP x w /\ qdef LyP x w.
Proof.
  intros D Hs. destruct (quant_def c G o x w D Hs) as (N & L). assert (L0 := L 0%nat ltac:(lia)). assert (L2 := L 2%nat ltac:(lia)). assert (L3 := L 3%nat ltac:(lia)). clear L.
  unfold qdef in *. fold (lo 0) in L0. fold (lo 2) in L2. fold (lo 3) in L3. unfold carterP, LxP, LyP. cbv zeta. cbn [defined_at meaning].
  assert (S : sin (point 0 (join x w) 3) <> 0) by exact Hs. assert (C0 : c <> 0) by lra. tauto.
Qed.
(** a quantity of position and velocity, conserved along the motion *)
Lemma kept_at_bl K Kin covE fE f x v X W T g (Q : V4 -> M4 -> V4 -> R) eQ :
  (forall y w z, f y w = Ok z -> bl_dom c G o y /\ sin (c2 y) <> 0) ->
  below 9 eQ = true -> (forall y w, bl_dom c G o y -> sin (c2 y) <> 0 -> qdef eQ y w) -> (forall y w h, MetricModel.kn_cov c G Cc o y = Ok h -> Q y h w = qval eQ y w) ->
  0 < T -> (forall t, 0 <= t <= T -> moves f X W t) -> MetricModel.kn_cov c G Cc o (X 0) = Ok g ->
  (forall t h, 0 <= t <= T -> MetricModel.kn_cov c G Cc o (X t) = Ok h -> Q (X t) h (W t) = Q (X 0) g (W 0)) ->
  flow_rounded K Kin c covE fE x v X W T -> kept_at K Kin c covE fE (MetricModel.kn_cov c G Cc o) x v T Q (Q (X 0) g (W 0)).
Proof.
  intros Hf Hb Hq Hv HT HM Eg Hk HF.
  assert (Dt : forall t, 0 <= t <= T -> bl_dom c G o (X t) /\ sin (c2 (X t)) <> 0) by (intros t Ht; destruct (HM t Ht) as (acc & _ & E & _); apply (Hf _ _ _ E)).
  assert (D0 := proj1 (Dt 0 ltac:(lra))). destruct D0 as (S & V & _).
  apply (kept_at_gen K Kin c covE fE _ x v X W T Q _ (domE c G o) eQ (domE_below c G o) Hb HT); [| |exact HF].
  - intros t Ht. destruct (Dt t Ht) as [D Hs]. split; [apply (moves_cont f), HM; exact Ht|]. split; [apply dom_def; exact D|]. split; [apply Hq; assumption|].
    assert (E := kn_cov_eq c G Cc o (X t) D). rewrite <- (Hv _ _ _ E). apply Hk; [exact Ht|exact E].
  - intros y w D. apply dom_inv in D; [|exact S|exact V]. eexists. split; [apply kn_cov_eq; exact D|]. apply Hv, kn_cov_eq, D.
Qed.
End BL.

(** KerrNewman, uncharged particle: Carter's constant *)
Theorem kn_carter_kept K Kin c G Cc o x v g w X W T : 0 <= K -> 0 <= Kin -> 0 < c -> 0 < G -> 0 < Cc -> q_val (mo_M o) <> 0 -> q_val (mo_q o) = 0 ->
  MetricModel.kn_cov c G Cc o (si_position c x) = Ok g -> 0 < mnth g 0 0 -> norm2 g (four_vel 0 v) < c ^ 2 -> timelike_lift c g v w ->
  0 < T -> X 0 = si_position c x -> W 0 = four_vel w v -> (forall t, 0 <= t <= T -> locally t (moves (kn_f_vec c G Cc o) X W)) ->
  let kp := kept_at K Kin c (fun e => kn_covA e c G Cc o) (fun e => kn_fA e c G Cc o) (MetricModel.kn_cov c G Cc o) x v T in
  kp (carter_si c (al_of c G o)) (carter_si c (al_of c G o) (si_position c x) g (four_vel w v)) /\
  (q_val (mo_a o) = 0 -> kp Lx_si (Lx_si (si_position c x) g (four_vel w v)) /\ kp Ly_si (Ly_si (si_position c x) g (four_vel w v))).
Proof.
  intros HK HKin Hc HG HC HM Hq Eg H0 Hn (Ew & Pw & Nw) HT X0 W0 M kp.
  assert (M' : forall t, 0 <= t <= T -> moves (kn_f_vec c G Cc o) X W t) by (intros t Ht; apply locally_singleton, M, Ht).
  destruct (M' 0 ltac:(lra)) as (acc0 & _ & E0' & _). destruct (kn_f_dom c G Cc o Hc _ _ _ E0') as (D0 & Hs0). destruct D0 as (Sys & Vs & _).
  assert (Hs : sin (c2 x) <> 0) by (rewrite X0 in Hs0; exact Hs0).
  destruct (kn_flow K Kin c G Cc o x v g HK HKin Hc HG HC Eg H0 Hs Hn) as (w' & (Ew' & _) & _ & HF).
  assert (w' = w) as -> by (rewrite Ew in Ew'; apply Ok_inj in Ew'; symmetry; exact Ew').
  specialize (HF T X W HT X0 W0 M). assert (Eg' := Eg). rewrite <- X0 in Eg'. rewrite <- W0, <- X0. unfold kp. destruct (progs_below c G o) as (B1 & B2 & B3).
  split; [|intros Ha; split].
  - apply (kept_at_bl c G Cc o K Kin _ _ _ x v X W T g (carter_si c (al_of c G o)) (carterP c G o) (kn_f_dom c G Cc o Hc) B1); try assumption.
    + intros y q D D'. apply (progs_def c G o Hc y q D D').
    + intros y q h E. apply (carter_val c G Cc o). exact E.
    + intros t h Ht E. apply (kn_carter_constant c G Cc o X W T Hc HG HC HM Sys Vs Hq M t g h Ht Eg' E).
  - apply (kept_at_bl c G Cc o K Kin _ _ _ x v X W T g Lx_si (LxP c G o) (kn_f_dom c G Cc o Hc) B2); try assumption.
    + intros y q D D'. apply (progs_def c G o Hc y q D D').
    + intros y q h E. apply (L_val c G Cc o). exact E.
    + intros t h Ht E. apply (kn_angular_constant c G Cc o X W T Hc HG HC HM Sys Ha Hq M t g h Ht Eg' E).
  - apply (kept_at_bl c G Cc o K Kin _ _ _ x v X W T g Ly_si (LyP c G o) (kn_f_dom c G Cc o Hc) B3); try assumption.
    + intros y q D D'. apply (progs_def c G o Hc y q D D').
    + intros y q h E. apply (L_val c G Cc o). exact E.
    + intros t h Ht E. apply (kn_angular_constant c G Cc o X W T Hc HG HC HM Sys Ha Hq M t g h Ht Eg' E).
Qed.
(** Schwarzschild: the angular momentum vector *)
Theorem sch_angular_kept K Kin c G o x v g w X W T : 0 <= K -> 0 <= Kin -> 0 < c -> 0 < G -> q_val (mo_M o) <> 0 ->
  MetricModel.sch_cov c G o (si_position c x) = Ok g -> 0 < mnth g 0 0 -> norm2 g (four_vel 0 v) < c ^ 2 -> timelike_lift c g v w ->
  0 < T -> X 0 = si_position c x -> W 0 = four_vel w v -> (forall t, 0 <= t <= T -> locally t (moves (sch_f_vec c G o) X W)) ->
  let kp := kept_at K Kin c (fun e => sch_covA e c G o) (fun e => sch_fA e c G o) (MetricModel.sch_cov c G o) x v T in
  kp Lx_si (Lx_si (si_position c x) g (four_vel w v)) /\ kp Ly_si (Ly_si (si_position c x) g (four_vel w v)).
Proof.
  intros HK HKin Hc HG HM Eg H0 Hn (Ew & Pw & Nw) HT X0 W0 M kp.
  assert (M' : forall t, 0 <= t <= T -> moves (sch_f_vec c G o) X W t) by (intros t Ht; apply locally_singleton, M, Ht).
  assert (S : mo_sys o = Sph) by (unfold MetricModel.sch_cov in Eg; destruct (mo_sys o); congruence).
  assert (CV : forall y, MetricModel.kn_cov c G 1 (as_kn o) y = MetricModel.sch_cov c G o y) by (intros y; apply sch_to_kn; exact S).
  set (k := as_kn o) in *.
  assert (FD : forall y w' z, sch_f_vec c G o y w' = Ok z -> bl_dom c G k y /\ sin (c2 y) <> 0) by (intros y w' z E; apply (sch_as_kn c G o y w' z Hc HG S) in E; apply (kn_f_dom c G 1 k Hc _ _ _ E)).
  assert (Hs : sin (c2 x) <> 0). { destruct (M' 0 ltac:(lra)) as (acc & _ & E & _). rewrite X0 in E. apply FD in E. exact (proj2 E). }
  destruct (sch_flow K Kin c G o x v g HK HKin Hc HG Eg H0 Hs Hn) as (w' & (Ew' & _) & _ & HF).
  assert (w' = w) as -> by (rewrite Ew in Ew'; apply Ok_inj in Ew'; symmetry; exact Ew').
  specialize (HF T X W HT X0 W0 M). assert (Eg' := Eg). rewrite <- X0, <- CV in Eg'. rewrite <- W0, <- X0. destruct (progs_below c G k) as (_ & B2 & B3).
  assert (TR : forall Q q0, kept_at K Kin c (fun e => sch_covA e c G o) (fun e => sch_fA e c G o) (MetricModel.kn_cov c G 1 k) x v T Q q0 -> kp Q q0).
  { intros Q q0 (C & r & R1 & R2 & R3). exists C, r. split; [exact R1|]. split; [exact R2|]. intros u e x' v' A1 A2 A3 A4 h N tb A5 A6 A7 n Hk.
    destruct (R3 u e x' v' A1 A2 A3 A4 h N tb A5 A6 A7 n Hk) as (s & g' & Z1 & Z2 & Z3). exists s, g'. split; [exact Z1|]. split; [rewrite <- CV; exact Z2|exact Z3]. }
  assert (MK : forall t, 0 <= t <= T -> locally t (moves (kn_f_vec c G 1 k) X W)). { intros t Ht. generalize (M t Ht). apply filter_imp. intros s Hs'. apply (sch_moves c G o X W s Hc HG S). exact Hs'. }
  split; apply TR.
  - apply (kept_at_bl c G 1 k K Kin _ _ _ x v X W T g Lx_si (LxP c G k) FD B2); try assumption.
    + intros y q D D'. apply (progs_def c G k Hc y q D D').
    + intros y q h E. apply (L_val c G 1 k). exact E.
    + intros t h Ht E. apply (kn_angular_constant c G 1 k X W T Hc HG Rlt_0_1 HM eq_refl eq_refl eq_refl MK t g h Ht Eg' E).
  - apply (kept_at_bl c G 1 k K Kin _ _ _ x v X W T g Ly_si (LyP c G k) FD B3); try assumption.
    + intros y q D D'. apply (progs_def c G k Hc y q D D').
    + intros y q h E. apply (L_val c G 1 k). exact E.
    + intros t h Ht E. apply (kn_angular_constant c G 1 k X W T Hc HG Rlt_0_1 HM eq_refl eq_refl eq_refl MK t g h Ht Eg' E).
Qed.
