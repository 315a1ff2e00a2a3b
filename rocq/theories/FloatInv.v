(** C120: the constants of motion along the trajectory the SI classes compute in floating point. *)
From Coq Require Import String Reals List ZArith Lra Lia Bool.
From Coquelicot Require Import Coquelicot.
From Verif Require Import Base Calc DualModel DualSpec DualDiff GeoUtilsModel CoordModel ConvModel ConvProofs2 ProgCont FantasyGlobal FantasyGlobal2 RKModel RKGlobal RKProg MetricModel MetricSpec MetricProofs MetricProofs2 MetricProofs3 MetricProofs4 MetricProofs5 MetricProofs6 MetricProofs7 MetricProofs8 MetricKilling MetricHamilton2 MetricUnify MetricRK PicardProg FloatModel FloatTrack FloatRK FloatRKG FloatMetricModel FloatMetric FloatMetric2 FloatMetric3 FloatMetric4 FloatMetric5 FloatMetric6 FloatMetric7 FloatMetric8.
From Verif Require Import FloatVel FloatFlow.
Import ListNotations.
Open Scope R_scope.

(** ** specification *)
(** position and velocity of a state of the integrator *)
Definition state_pos (s : rk4f) : V4 := mkQ4 (nth 0 (rf_y s) 0) (nth 1 (rf_y s) 0) (nth 2 (rf_y s) 0) (nth 3 (rf_y s) 0).
Definition state_vel (s : rk4f) : V4 := mkQ4 (nth 4 (rf_y s) 0) (nth 5 (rf_y s) 0) (nth 6 (rf_y s) 0) (nth 7 (rf_y s) 0).
(** component mu of the lowered velocity g v: mu = 0 the energy, mu = 3 the axial angular momentum per unit mass, up to constants *)
Definition low (mu : nat) (g : M4) (v : V4) : R := sum4 (fun j => mnth g mu j * q4nth v j).
(** along every run the metric exists at the computed position and the quantity Q of the computed state differs from q0 by at most C (h^4 + u / h) *)
Definition kept (K Kin c : R) (covE : fenv -> V4 -> Res M4) (fE : fenv -> R -> list R -> Res (list R)) (cov : V4 -> Res M4) (x v : V4) (T : R) (Q : M4 -> V4 -> R) (q0 : R) : Prop :=
  exists C r, 0 <= C /\ 0 < r /\ forall u e x' v', 0 <= u -> good K u e -> near4 (Kin * u) x' x -> near4 (Kin * u) v' v ->
  forall h N tb, 0 < h <= r -> INR N * h <= T -> u / h <= r -> forall k, (k <= N)%nat ->
  exists s g, flowA e c (covE e) (fE e) x' v' tb h k = Ok s /\ cov (state_pos s) = Ok g /\ Rabs (Q g (state_vel s) - q0) <= C * (h ^ 4 + u / h).

(** ** a program quantity near a curve *)
Definition qval (e : pexpr) (x v : V4) : R := meaning (point 0 (join x v)) e.
Definition qdef (e : pexpr) (x v : V4) : Prop := defined_at (point 0 (join x v)) e.
Lemma join_near eps x v x' v' : 0 <= eps -> near4 eps x' x -> near4 eps v' v -> forall i, (i < 9)%nat -> Rabs (point 0 (join x' v') i - point 0 (join x v) i) <= eps.
Proof.
  intros He Hx Hv i Hi. destruct i as [|i]; [cbn [point]; rewrite Rminus_eq_0, Rabs_R0; exact He|]. cbn [point]. unfold join.
  destruct (Nat.ltb_spec i 4) as [L|L]; [apply Hx; exact L|apply Hv; lia].
Qed.
Lemma near4_pos eps x x' : near4 eps x' x -> 0 <= eps.
Proof. intros H. eapply Rle_trans; [apply Rabs_pos|apply (H 0%nat); lia]. Qed.
Lemma along_compact e X W T : below 9 e = true -> 0 < T ->
  (forall t, 0 <= t <= T -> (forall i, (i < 4)%nat -> continuous (fun s => q4nth (X s) i) t /\ continuous (fun s => q4nth (W s) i) t) /\ qdef e (X t) (W t)) ->
  exists rho L, 0 < rho /\ 0 <= L /\ forall t, 0 <= t <= T -> forall x' v' eps, eps < rho -> near4 eps x' (X t) -> near4 eps v' (W t) -> qdef e x' v' /\ Rabs (qval e x' v' - qval e (X t) (W t)) <= L * eps.
Proof.
  intros Hb HT H.
  set (P := fun rho L t => forall x' v' eps, eps < rho -> near4 eps x' (X t) -> near4 eps v' (W t) -> qdef e x' v' /\ Rabs (qval e x' v' - qval e (X t) (W t)) <= L * eps).
  change (exists rho L, 0 < rho /\ 0 <= L /\ forall t, 0 <= t <= T -> P rho L t).
  apply (real_induction (fun x y => exists rho L, 0 < rho /\ 0 <= L /\ forall t, x <= t <= y -> P rho L t) 0 T ltac:(lra)).
  - intros x y x' y' (rho & L & A & B & C) H1 H2. exists rho, L. split; [exact A|]. split; [exact B|]. intros t Ht. apply C. lra.
  - intros x y z Hy (rho & L & A & B & C) (rho' & L' & A' & B' & C'). exists (Rmin rho rho'), (Rmax L L'). split; [apply Rmin_pos; assumption|]. split; [eapply Rle_trans; [exact B|apply Rmax_l]|].
    intros t Ht q' p' eps He Hx Hv. assert (E0 := near4_pos _ _ _ Hx).
    assert (M1 := Rmin_l rho rho'). assert (M2 := Rmin_r rho rho'). assert (M3 := Rmax_l L L'). assert (M4 := Rmax_r L L').
    destruct (Rle_dec t y) as [K|K].
    + destruct (C t ltac:(lra) q' p' eps ltac:(lra) Hx Hv) as [D1 D2]. split; [exact D1|]. eapply Rle_trans; [exact D2|]. apply Rmult_le_compat_r; [exact E0|exact M3].
    + destruct (C' t ltac:(lra) q' p' eps ltac:(lra) Hx Hv) as [D1 D2]. split; [exact D1|]. eapply Rle_trans; [exact D2|]. apply Rmult_le_compat_r; [exact E0|exact M4].
  - intros x Hx. destruct (H x Hx) as [Hcont Hd].
    destruct (prog_lip 9 e _ Hb Hd) as (r1 & L & Hr1 & HL & Hlip). destruct (prog_near 9 e _ Hb Hd 1 ltac:(lra)) as (r2 & Hr2 & Hnear).
    set (r := Rmin r1 r2). assert (Hr : 0 < r) by (apply Rmin_pos; assumption). assert (R1 := Rmin_l r1 r2). assert (R2 := Rmin_r r1 r2). fold r in R1, R2.
    assert (Cx : exists d, 0 < d /\ forall t, Rabs (t - x) < d -> near4 (r / 2) (X t) (X x) /\ near4 (r / 2) (W t) (W x)).
    { assert (Q : forall m, (m <= 4)%nat -> exists d, 0 < d /\ forall t, Rabs (t - x) < d -> forall i, (i < m)%nat -> Rabs (q4nth (X t) i - q4nth (X x) i) < r / 2 /\ Rabs (q4nth (W t) i - q4nth (W x) i) < r / 2).
      { induction m as [|m IH]; intros Hm; [exists 1; split; [lra|]; intros; lia|]. destruct (IH ltac:(lia)) as (d & Hd' & Kd). destruct (Hcont m ltac:(lia)) as [A B].
        assert (hr : 0 < r / 2) by lra.
        destruct (A (fun y => Rabs (y - q4nth (X x) m) < r / 2)) as [e1 E1]. { exists (mkposreal (r / 2) hr). intros y Hy. exact Hy. }
        destruct (B (fun y => Rabs (y - q4nth (W x) m) < r / 2)) as [e2 E2]. { exists (mkposreal (r / 2) hr). intros y Hy. exact Hy. }
        exists (Rmin d (Rmin e1 e2)). split; [repeat apply Rmin_pos; [exact Hd'|apply cond_pos|apply cond_pos]|]. intros t Ht i Hi.
        assert (M1 := Rmin_l d (Rmin e1 e2)). assert (M2 := Rmin_r d (Rmin e1 e2)). assert (M3 := Rmin_l e1 e2). assert (M4 := Rmin_r e1 e2).
        destruct (Nat.eq_dec i m) as [-> |]; [|apply Kd; [lra|lia]]. split; [apply E1|apply E2]; (eapply Rlt_le_trans; [exact Ht|lra]). }
      destruct (Q 4%nat (Nat.le_refl 4)) as (d & Hd' & Kd). exists d. split; [exact Hd'|]. intros t Ht. split; intros i Hi; apply Rlt_le, (Kd t Ht i Hi). }
    destruct Cx as (d & Hd' & Cx). exists (d / 2). split; [lra|]. exists (r / 2), L. split; [lra|]. split; [exact HL|]. intros t Ht x' v' eps He Hx' Hv'.
    destruct (Cx t ltac:(apply Rabs_def1; lra)) as [K1 K2].
    assert (N1 := join_near (r / 2) _ _ _ _ ltac:(lra) K1 K2). assert (N2 := join_near eps _ _ _ _ (near4_pos _ _ _ Hx') Hx' Hv').
    assert (N3 : near 9 r (point 0 (join (X x) (W x))) (point 0 (join x' v'))).
    { intros i Hi. replace (point 0 (join x' v') i - point 0 (join (X x) (W x)) i) with ((point 0 (join x' v') i - point 0 (join (X t) (W t)) i) + (point 0 (join (X t) (W t)) i - point 0 (join (X x) (W x)) i)) by ring.
      eapply Rle_lt_trans; [apply Rabs_triang|]. assert (A := N1 i Hi). assert (B := N2 i Hi). lra. }
    assert (N4 : near 9 r1 (point 0 (join (X x) (W x))) (point 0 (join (X t) (W t)))) by (intros i Hi; assert (A := N1 i Hi); lra).
    split; [apply Hnear; intros i Hi; eapply Rlt_le_trans; [apply N3; exact Hi|exact R2]|].
    apply Hlip; [intros i Hi; eapply Rlt_le_trans; [apply N3; exact Hi|exact R1]|exact N4|exact N2].
Qed.

(** ** a quantity kept along the exact motion is kept, up to the error of the trajectory *)
Lemma kept_gen K Kin c covE fE cov x v X W T (Q : M4 -> V4 -> R) q0 eD eQ :
  below 9 eD = true -> below 9 eQ = true -> 0 < T ->
  (forall t, 0 <= t <= T -> (forall i, (i < 4)%nat -> continuous (fun s => q4nth (X s) i) t /\ continuous (fun s => q4nth (W s) i) t) /\ qdef eD (X t) (W t) /\ qdef eQ (X t) (W t) /\ qval eQ (X t) (W t) = q0) ->
  (forall x v, qdef eD x v -> exists g, cov x = Ok g /\ Q g v = qval eQ x v) ->
  flow_rounded K Kin c covE fE x v X W T -> kept K Kin c covE fE cov x v T Q q0.
Proof.
  intros BD BQ HT HA HS (C & r & HC & Hr & HF).
  destruct (along_compact eD X W T BD HT) as (rho1 & L1 & Hr1 & _ & H1). { intros t Ht. destruct (HA t Ht) as (A & B & _). split; assumption. }
  destruct (along_compact eQ X W T BQ HT) as (rho2 & L & Hr2 & HL & H2). { intros t Ht. destruct (HA t Ht) as (A & _ & B & _). split; assumption. }
  set (rho := Rmin rho1 rho2). assert (Hrho : 0 < rho) by (apply Rmin_pos; assumption). assert (Q1 := Rmin_l rho1 rho2). assert (Q2 := Rmin_r rho1 rho2). fold rho in Q1, Q2.
  set (d := rho / (4 * (C + 1))). assert (Pd : 0 < d) by (apply Rdiv_lt_0_compat; lra).
  exists (L * C), (Rmin r (Rmin 1 d)). split; [apply Rmult_le_pos; assumption|]. split; [repeat apply Rmin_pos; lra|].
  intros u e x' v' Hu He Hx Hv h N tb Hh HN Huh k Hk.
  assert (M1 := Rmin_l r (Rmin 1 d)). assert (M2 := Rmin_r r (Rmin 1 d)). assert (M3 := Rmin_l 1 d). assert (M4 := Rmin_r 1 d).
  destruct (HF u e x' v' Hu He Hx Hv h N tb ltac:(lra) HN ltac:(lra) k Hk) as (s & Es & _ & Bs).
  assert (Ht : 0 <= INR k * h <= T). { split; [apply Rmult_le_pos; [apply pos_INR|lra]|]. assert (INR k <= INR N) by (apply le_INR; exact Hk). apply Rle_trans with (INR N * h); [apply Rmult_le_compat_r; lra|exact HN]. }
  set (t := INR k * h) in *. set (eps := C * (h ^ 4 + u / h)) in *.
  assert (Hp : h ^ 4 <= d). { replace (h ^ 4) with (h * h ^ 3) by ring. assert (Z : h ^ 3 <= 1) by (rewrite <- (pow1 3); apply pow_incr; lra). assert (Z0 : 0 <= h ^ 3) by (apply pow_le; lra). nra. }
  assert (Heps : eps < rho).
  { unfold eps. apply Rle_lt_trans with (C * (2 * d)); [apply Rmult_le_compat_l; lra|]. unfold d. apply Rmult_lt_reg_r with (4 * (C + 1)); [lra|].
    replace (C * (2 * (rho / (4 * (C + 1)))) * (4 * (C + 1))) with (2 * C * rho) by (field; lra). nra. }
  assert (NX : near4 eps (state_pos s) (X t)) by (intros i Hi; destruct (Bs i Hi) as [B _]; do 4 (destruct i as [|i]; [exact B|]); lia).
  assert (NV : near4 eps (state_vel s) (W t)) by (intros i Hi; destruct (Bs i Hi) as [_ B]; do 4 (destruct i as [|i]; [exact B|]); lia).
  destruct (H1 t Ht _ _ eps ltac:(lra) NX NV) as [D1 _]. destruct (H2 t Ht _ _ eps ltac:(lra) NX NV) as [_ D2].
  destruct (HS _ _ D1) as (g & Eg & EQ). exists s, g. split; [exact Es|]. split; [exact Eg|]. rewrite EQ.
  destruct (HA t Ht) as (_ & _ & _ & E0). rewrite E0 in D2. rewrite Rmult_assoc. exact D2.
Qed.

(** ** the programs *)
Section BL.
Variables (c G Cc : R) (o : mobj).
Let al := al_of c G o.
Let rs := sch_rad c G o.
Definition domE : pexpr := EDiv (EConst 1) (EMul (sgP al) (dlP al rs)).
Definition lowE (mu : nat) : pexpr := sum4E (fun j => EMul (covP c al rs mu j) (velP j)).
Definition normE : pexpr := sum4E (fun i => EMul (velP i) (sum4E (fun j => EMul (covP c al rs i j) (velP j)))).
Lemma domE_below : below 9 domE = true. Proof. reflexivity. Qed.
Lemma lowE_below mu : (mu < 4)%nat -> below 9 (lowE mu) = true.
Proof. intros H. do 4 (destruct mu as [|mu]; [reflexivity|]). lia. Qed.
Lemma normE_below : below 9 normE = true. Proof. reflexivity. Qed.
Lemma dom_def x v : bl_dom c G o x -> qdef domE x v.
Proof.
  intros (_ & _ & D1 & D2). unfold qdef, domE. cbn [defined_at meaning]. rewrite !(sg_mean c G o), !(dl_mean c G o), pos_join. fold al rs. 
  destruct (basic_defined c G o (point 0 (join x v))) as (B1 & B2 & _). fold al rs in B1, B2. fold al rs in D1, D2.
  split; [exact I|]. split; [split; assumption|]. apply Rmult_integral_contrapositive_currified; assumption.
Qed.
Lemma dom_inv x v : mo_sys o = BL -> valid_spin o -> qdef domE x v -> bl_dom c G o x.
Proof.
  intros S V H. unfold qdef, domE in H. cbn [defined_at meaning] in H. destruct H as (_ & _ & N). rewrite !(sg_mean c G o), !(dl_mean c G o), pos_join in N.
  split; [exact S|]. split; [exact V|]. split; intros E; apply N; rewrite E; ring.
Qed.
Lemma entry_val x v g i j : MetricModel.kn_cov c G Cc o x = Ok g -> (i < 4)%nat -> (j < 4)%nat -> meaning (point 0 (join x v)) (covP c al rs i j) = mnth g i j.
Proof.
  intros E Hi Hj. rewrite kn_cov_eq in E by (eapply kn_cov_dom; exact E). apply Ok_inj in E. subst g. unfold al, rs. rewrite (cov_mean c G o) by assumption. rewrite pos_join. reflexivity.
Qed.
Lemma vel_val x v j : (j < 4)%nat -> meaning (point 0 (join x v)) (velP j) = q4nth v j.
Proof. intros H. do 4 (destruct j as [|j]; [reflexivity|]). lia. Qed.
Lemma low_val x v g mu : MetricModel.kn_cov c G Cc o x = Ok g -> (mu < 4)%nat -> low mu g v = qval (lowE mu) x v.
Proof.
  intros E Hm. unfold qval, lowE. rewrite sum4_meaning. unfold low, sum4. cbn [meaning]. rewrite !(entry_val x v g) by (assumption || lia). rewrite !vel_val by lia. reflexivity.
Qed.
Lemma norm_val x v g : MetricModel.kn_cov c G Cc o x = Ok g -> norm2 g v = qval normE x v.
Proof.
  intros E. unfold qval, normE. rewrite sum4_meaning. unfold sum4. cbn [meaning]. rewrite !sum4_meaning. unfold sum4. cbn [meaning].
  rewrite !(entry_val x v g) by (assumption || lia). rewrite !vel_val by lia. destruct v as [v0' v1' v2' v3']. unfold norm2, dot, mv, mnth. destruct g as [[] [] [] []]. cbn. unfold dot. cbn. ring.
Qed.
Lemma quant_def x v : bl_dom c G o x -> sin (c2 x) <> 0 -> qdef normE x v /\ forall mu, (mu < 4)%nat -> qdef (lowE mu) x v.
Proof.
  intros (_ & _ & D1 & D2) Hs. assert (O : ok_at c G o (join x v)) by (unfold ok_at; rewrite pos_join; split; [exact D1|split; [exact D2|exact Hs]]).
  assert (A : forall i j, (i < 4)%nat -> (j < 4)%nat -> defined_at (point 0 (join x v)) (covP c al rs i j)) by (intros i j Hi Hj; apply cov_defined; assumption).
  assert (L : forall mu, (mu < 4)%nat -> qdef (lowE mu) x v) by (intros mu Hm; apply sum4_defined; intros k Hk; split; [apply A; assumption|exact I]).
  split; [|exact L]. apply sum4_defined. intros k Hk. split; [exact I|]. apply (L k Hk).
Qed.
End BL.

(** ** the motions *)
Lemma hv_cont p t v : has_velocity p t v -> forall i, (i < 4)%nat -> continuous (fun s => q4nth (p s) i) t.
Proof. intros H i Hi. apply (D_continuous _ _ _ (H i Hi)). Qed.
Lemma moves_cont f X W t : moves f X W t -> forall i, (i < 4)%nat -> continuous (fun s => q4nth (X s) i) t /\ continuous (fun s => q4nth (W s) i) t.
Proof. intros (acc & H1 & _ & H2) i Hi. split; [apply (hv_cont _ _ _ H1 i Hi)|apply (hv_cont _ _ _ H2 i Hi)]. Qed.
Section KNclass.
Variables (c G Cc : R) (o : mobj).
Hypothesis Hc : 0 < c.
Lemma lowered_val X W t g mu : MetricModel.kn_cov c G Cc o (X t) = Ok g -> lowered (MetricModel.kn_cov c G Cc o) X W mu t = low mu g (W t).
Proof. intros E. unfold lowered, low. rewrite E. reflexivity. Qed.
Lemma along_val X W t g : MetricModel.kn_cov c G Cc o (X t) = Ok g -> norm_along (MetricModel.kn_cov c G Cc o) X W t = norm2 g (W t).
Proof. intros E. unfold norm_along. rewrite E. unfold entry. destruct (W t) as [v0' v1' v2' v3']. unfold norm2, dot, mv, mnth, sum4. destruct g as [[] [] [] []]. cbn. unfold dot. cbn. ring. Qed.
(** a quantity with program eQ, conserved along the motion *)
Lemma kept_bl K Kin covE fE f x v X W T g (Q : M4 -> V4 -> R) eQ :
  (forall y w z, f y w = Ok z -> bl_dom c G o y /\ sin (c2 y) <> 0) ->
  below 9 eQ = true -> (forall y w, bl_dom c G o y -> sin (c2 y) <> 0 -> qdef eQ y w) -> (forall y w h, MetricModel.kn_cov c G Cc o y = Ok h -> Q h w = qval eQ y w) ->
  0 < T -> (forall t, 0 <= t <= T -> moves f X W t) -> MetricModel.kn_cov c G Cc o (X 0) = Ok g ->
  (forall t h, 0 <= t <= T -> MetricModel.kn_cov c G Cc o (X t) = Ok h -> Q h (W t) = Q g (W 0)) ->
  flow_rounded K Kin c covE fE x v X W T -> kept K Kin c covE fE (MetricModel.kn_cov c G Cc o) x v T Q (Q g (W 0)).
Proof.
  intros Hf Hb Hq Hv HT HM Eg Hk HF.
  assert (Dt : forall t, 0 <= t <= T -> bl_dom c G o (X t) /\ sin (c2 (X t)) <> 0) by (intros t Ht; destruct (HM t Ht) as (acc & _ & E & _); apply (Hf _ _ _ E)).
  assert (D0 := proj1 (Dt 0 ltac:(lra))). destruct D0 as (S & V & _).
  apply (kept_gen K Kin c covE fE _ x v X W T Q _ (domE c G o) eQ (domE_below c G o) Hb HT); [| |exact HF].
  - intros t Ht. destruct (Dt t Ht) as [D Hs]. split; [apply (moves_cont f), HM; exact Ht|]. split; [apply dom_def; exact D|]. split; [apply Hq; assumption|].
    assert (E := kn_cov_eq c G Cc o (X t) D). rewrite <- (Hv _ _ _ E). apply Hk; [exact Ht|exact E].
  - intros y w D. apply dom_inv in D; [|exact S|exact V]. eexists. split; [apply kn_cov_eq; exact D|]. apply Hv, kn_cov_eq, D.
Qed.
Lemma kn_f_dom y w z : kn_f_vec c G Cc o y w = Ok z -> bl_dom c G o y /\ sin (c2 y) <> 0.
Proof.
  intros E. unfold kn_f_vec in E. destruct (mo_sys o) eqn:S; try discriminate. apply bindR_Ok in E. destruct E as (ch & E & _).
  assert (Hc' : c <> 0) by lra. apply (kn_christoffels_defined c G Cc o y Hc'). exists ch. exact E.
Qed.
Lemma kerr_f_dom y w z : kerr_f_vec c G Cc o y w = Ok z -> bl_dom c G o y /\ sin (c2 y) <> 0.
Proof.
  intros E. unfold kerr_f_vec in E. destruct (mo_sys o) eqn:S; try discriminate. apply bindR_Ok in E. destruct E as (ch & E & _).
  assert (Hc' : c <> 0) by lra. apply (kerr_christoffels_defined c G Cc o y Hc'). exists ch. exact E.
Qed.
Theorem kn_kept K Kin x v g w X W T : 0 <= K -> 0 <= Kin -> 0 < G -> 0 < Cc -> q_val (mo_q o) = 0 ->
  MetricModel.kn_cov c G Cc o (si_position c x) = Ok g -> 0 < mnth g 0 0 -> norm2 g (four_vel 0 v) < c ^ 2 -> timelike_lift c g v w ->
  0 < T -> X 0 = si_position c x -> W 0 = four_vel w v -> (forall t, 0 <= t <= T -> locally t (moves (kn_f_vec c G Cc o) X W)) ->
  let kp := kept K Kin c (fun e => kn_covA e c G Cc o) (fun e => kn_fA e c G Cc o) (MetricModel.kn_cov c G Cc o) x v T in
  kp norm2 (c ^ 2) /\ kp (low 0) (low 0 g (four_vel w v)) /\ kp (low 3) (low 3 g (four_vel w v)).
Proof.
  intros HK HKin HG HC Hq Eg H0 Hn (Ew & Pw & Nw) HT X0 W0 M kp.
  assert (M' : forall t, 0 <= t <= T -> moves (kn_f_vec c G Cc o) X W t) by (intros t Ht; apply locally_singleton, M, Ht).
  assert (Hs : sin (c2 x) <> 0). { destruct (M' 0 ltac:(lra)) as (acc & _ & E & _). rewrite X0 in E. apply kn_f_dom in E. exact (proj2 E). }
  destruct (kn_flow K Kin c G Cc o x v g HK HKin Hc HG HC Eg H0 Hs Hn) as (w' & (Ew' & _) & _ & HF).
  assert (w' = w) as -> by (rewrite Ew in Ew'; apply Ok_inj in Ew'; symmetry; exact Ew').
  specialize (HF T X W HT X0 W0 M). assert (Eg' := Eg). rewrite <- X0 in Eg'. rewrite <- Nw, <- W0. unfold kp.
  assert (MM : forall a, 0 <= a <= T -> forall t, 0 <= t <= a -> exists acc, has_velocity X t (W t) /\ kn_f_vec c G Cc o (X t) (W t) = Ok (W t, acc) /\ has_velocity W t acc) by (intros a Ha t Ht; apply M'; lra).
  split; [|split].
  - apply (kept_bl K Kin _ _ _ x v X W T g norm2 (normE c G o) kn_f_dom (normE_below c G o)); try assumption.
    + intros y q D D'. apply (quant_def c G o y q D D').
    + intros y q h E. apply (norm_val c G Cc o). exact E.
    + intros t h Ht E. rewrite <- (along_val X W t h E), <- (along_val X W 0 g Eg'). symmetry. apply (kn_norm_constant c G Cc o X W 0 t Hq (proj1 Ht)). apply MM. exact Ht.
  - apply (kept_bl K Kin _ _ _ x v X W T g (low 0) (lowE c G o 0) kn_f_dom (lowE_below c G o 0 ltac:(lia))); try assumption.
    + intros y q D D'. apply (quant_def c G o y q D D'). lia.
    + intros y q h E. apply (low_val c G Cc o); [exact E|lia].
    + intros t h Ht E. rewrite <- (lowered_val X W t h 0 E), <- (lowered_val X W 0 g 0 Eg'). symmetry. apply (kn_lowered_constant c G Cc o X W 0 t 0 Hq (or_introl eq_refl) (proj1 Ht)). apply MM. exact Ht.
  - apply (kept_bl K Kin _ _ _ x v X W T g (low 3) (lowE c G o 3) kn_f_dom (lowE_below c G o 3 ltac:(lia))); try assumption.
    + intros y q D D'. apply (quant_def c G o y q D D'). lia.
    + intros y q h E. apply (low_val c G Cc o); [exact E|lia].
    + intros t h Ht E. rewrite <- (lowered_val X W t h 3 E), <- (lowered_val X W 0 g 3 Eg'). symmetry. apply (kn_lowered_constant c G Cc o X W 0 t 3 Hq (or_intror eq_refl) (proj1 Ht)). apply MM. exact Ht.
Qed.
(** the Kerr class keeps the energy (its angular momentum and norm drift: C95, C39) *)
Theorem kerr_kept K Kin x v g w X W T : 0 <= K -> 0 <= Kin ->
  kerr_cov c G Cc o (si_position c x) = Ok g -> 0 < mnth g 0 0 -> norm2 g (four_vel 0 v) < c ^ 2 -> timelike_lift c g v w ->
  0 < T -> X 0 = si_position c x -> W 0 = four_vel w v -> (forall t, 0 <= t <= T -> locally t (moves (kerr_f_vec c G Cc o) X W)) ->
  kept K Kin c (fun e => kerr_covA e c G Cc o) (fun e => kerr_fA e c G Cc o) (kerr_cov c G Cc o) x v T (low 0) (low 0 g (four_vel w v)).
Proof.
  intros HK HKin Eg H0 Hn (Ew & Pw & Nw) HT X0 W0 M.
  assert (M' : forall t, 0 <= t <= T -> moves (kerr_f_vec c G Cc o) X W t) by (intros t Ht; apply locally_singleton, M, Ht).
  assert (Hs : sin (c2 x) <> 0). { destruct (M' 0 ltac:(lra)) as (acc & _ & E & _). rewrite X0 in E. apply kerr_f_dom in E. exact (proj2 E). }
  destruct (kerr_flow K Kin c G Cc o x v g HK HKin Hc Eg H0 Hs Hn) as (w' & (Ew' & _) & _ & HF).
  assert (w' = w) as -> by (rewrite Ew in Ew'; apply Ok_inj in Ew'; symmetry; exact Ew').
  specialize (HF T X W HT X0 W0 M). assert (Eg' := Eg). rewrite <- X0 in Eg'. rewrite kerr_cov_is_kn in Eg'. rewrite <- W0.
  assert (R : kept K Kin c (fun e => kerr_covA e c G Cc o) (fun e => kerr_fA e c G Cc o) (MetricModel.kn_cov c G Cc o) x v T (low 0) (low 0 g (W 0))).
  { apply (kept_bl K Kin _ _ _ x v X W T g (low 0) (lowE c G o 0) kerr_f_dom (lowE_below c G o 0 ltac:(lia))); try assumption.
    - intros y q D D'. apply (quant_def c G o y q D D'). lia.
    - intros y q h E. apply (low_val c G Cc o); [exact E|lia].
    - intros t h Ht E. rewrite <- (lowered_val X W t h 0 E), <- (lowered_val X W 0 g 0 Eg'). symmetry.
      assert (QQ := kerr_energy_constant c G Cc o X W 0 t (proj1 Ht)). unfold lowered in QQ |- *. rewrite !kerr_cov_is_kn in QQ. apply QQ. intros s Hs'. apply M'. lra. }
  destruct R as (C & r & R1 & R2 & R3). exists C, r. split; [exact R1|]. split; [exact R2|]. intros u e x' v' A1 A2 A3 A4 h N tb A5 A6 A7 k Hk.
  destruct (R3 u e x' v' A1 A2 A3 A4 h N tb A5 A6 A7 k Hk) as (s & g' & B1 & B2 & B3). exists s, g'. split; [exact B1|]. split; [rewrite kerr_cov_is_kn; exact B2|exact B3].
Qed.
End KNclass.
Theorem sch_kept K Kin c G o x v g w X W T : 0 <= K -> 0 <= Kin -> 0 < c -> 0 < G ->
  MetricModel.sch_cov c G o (si_position c x) = Ok g -> 0 < mnth g 0 0 -> norm2 g (four_vel 0 v) < c ^ 2 -> timelike_lift c g v w ->
  0 < T -> X 0 = si_position c x -> W 0 = four_vel w v -> (forall t, 0 <= t <= T -> locally t (moves (sch_f_vec c G o) X W)) ->
  let kp := kept K Kin c (fun e => sch_covA e c G o) (fun e => sch_fA e c G o) (MetricModel.sch_cov c G o) x v T in
  kp norm2 (c ^ 2) /\ kp (low 0) (low 0 g (four_vel w v)) /\ kp (low 3) (low 3 g (four_vel w v)).
Proof.
  intros HK HKin Hc HG Eg H0 Hn (Ew & Pw & Nw) HT X0 W0 M kp.
  assert (M' : forall t, 0 <= t <= T -> moves (sch_f_vec c G o) X W t) by (intros t Ht; apply locally_singleton, M, Ht).
  assert (S : mo_sys o = Sph) by (unfold MetricModel.sch_cov in Eg; destruct (mo_sys o); congruence).
  assert (CV : forall y, MetricModel.kn_cov c G 1 (as_kn o) y = MetricModel.sch_cov c G o y) by (intros y; apply (spinless_metric c G 1 (as_kn o) o y eq_refl S eq_refl eq_refl)).
  set (k := as_kn o) in *.
  assert (FD : forall y w' z, sch_f_vec c G o y w' = Ok z -> bl_dom c G k y /\ sin (c2 y) <> 0) by (intros y w' z E; apply (sch_as_kn c G o y w' z Hc HG S) in E; apply (kn_f_dom c G 1 k Hc _ _ _ E)).
  assert (Hs : sin (c2 x) <> 0). { destruct (M' 0 ltac:(lra)) as (acc & _ & E & _). rewrite X0 in E. apply FD in E. exact (proj2 E). }
  destruct (sch_flow K Kin c G o x v g HK HKin Hc HG Eg H0 Hs Hn) as (w' & (Ew' & _) & _ & HF).
  assert (w' = w) as -> by (rewrite Ew in Ew'; apply Ok_inj in Ew'; symmetry; exact Ew').
  specialize (HF T X W HT X0 W0 M). assert (Eg' := Eg). rewrite <- X0, <- CV in Eg'. rewrite <- Nw, <- W0.
  assert (MM : forall a, 0 <= a <= T -> forall t, 0 <= t <= a -> exists acc, has_velocity X t (W t) /\ sch_f_vec c G o (X t) (W t) = Ok (W t, acc) /\ has_velocity W t acc) by (intros a Ha t Ht; apply M'; lra).
  assert (Hc' : c <> 0) by lra.
  assert (TR : forall Q q0, kept K Kin c (fun e => sch_covA e c G o) (fun e => sch_fA e c G o) (MetricModel.kn_cov c G 1 k) x v T Q q0 -> kp Q q0).
  { intros Q q0 (C & r & R1 & R2 & R3). exists C, r. split; [exact R1|]. split; [exact R2|]. intros u e x' v' A1 A2 A3 A4 h N tb A5 A6 A7 n Hk.
    destruct (R3 u e x' v' A1 A2 A3 A4 h N tb A5 A6 A7 n Hk) as (s & g' & B1 & B2 & B3). exists s, g'. split; [exact B1|]. split; [rewrite <- CV; exact B2|exact B3]. }
  split; [|split]; apply TR.
  - apply (kept_bl c G 1 k K Kin _ _ _ x v X W T g norm2 (normE c G k) FD (normE_below c G k)); try assumption.
    + intros y q D D'. apply (quant_def c G k y q D D').
    + intros y q h E. apply (norm_val c G 1 k). exact E.
    + intros t h Ht E. assert (Z := sch_norm_constant c G o X W 0 t Hc' (proj1 Ht) (MM t Ht)). unfold norm_along in Z. rewrite <- !CV in Z. fold (norm_along (MetricModel.kn_cov c G 1 k) X W 0) in Z. fold (norm_along (MetricModel.kn_cov c G 1 k) X W t) in Z.
      rewrite (along_val c G 1 k X W t h E), (along_val c G 1 k X W 0 g Eg') in Z. symmetry. exact Z.
  - apply (kept_bl c G 1 k K Kin _ _ _ x v X W T g (low 0) (lowE c G k 0) FD (lowE_below c G k 0 ltac:(lia))); try assumption.
    + intros y q D D'. apply (quant_def c G k y q D D'). lia.
    + intros y q h E. apply (low_val c G 1 k); [exact E|lia].
    + intros t h Ht E. assert (Z := sch_lowered_constant c G o X W 0 t 0 Hc' (or_introl eq_refl) (proj1 Ht) (MM t Ht)). unfold lowered in Z. rewrite <- !CV in Z. fold (lowered (MetricModel.kn_cov c G 1 k) X W 0 0) in Z. fold (lowered (MetricModel.kn_cov c G 1 k) X W 0 t) in Z.
      rewrite (lowered_val c G 1 k X W t h 0 E), (lowered_val c G 1 k X W 0 g 0 Eg') in Z. symmetry. exact Z.
  - apply (kept_bl c G 1 k K Kin _ _ _ x v X W T g (low 3) (lowE c G k 3) FD (lowE_below c G k 3 ltac:(lia))); try assumption.
    + intros y q D D'. apply (quant_def c G k y q D D'). lia.
    + intros y q h E. apply (low_val c G 1 k); [exact E|lia].
    + intros t h Ht E. assert (Z := sch_lowered_constant c G o X W 0 t 3 Hc' (or_intror eq_refl) (proj1 Ht) (MM t Ht)). unfold lowered in Z. rewrite <- !CV in Z. fold (lowered (MetricModel.kn_cov c G 1 k) X W 3 0) in Z. fold (lowered (MetricModel.kn_cov c G 1 k) X W 3 t) in Z.
      rewrite (lowered_val c G 1 k X W t h 3 E), (lowered_val c G 1 k X W 0 g 3 Eg') in Z. symmetry. exact Z.
Qed.
