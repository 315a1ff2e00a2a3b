(** C116, C117: RK4naive on the f_vec of the metric classes, in exact and in floating point arithmetic; existence and uniqueness of their motions. *)
From Coq Require Import String Reals List ZArith Lra Lia Bool.
From Coquelicot Require Import Coquelicot.
From Verif Require Import Base Calc DualModel DualSpec DualProofs DualDiff GeoUtilsModel GeoUtilsSpec GeoUtilsProofs CoordModel CoordProofs2 ConvModel ConvProofs FantasyModel FantasyHam ProgCont FantasyOrder
  FantasyGlobal FantasyGlobal2 FantasyGlobal3 RKModel RKProofs RKOrder RKOrder2 RKGlobal RKGlobal2 RKProg
  MetricModel MetricSpec MetricProofs MetricProofs2 MetricProofs3 MetricProofs4 MetricProofs6 MetricProofs7 MetricUnify MetricHamilton MetricHamilton2 MetricRK Picard PicardProg FloatModel FloatExact FloatTrack FloatGlobal FloatTraj FloatIEEE FloatRK FloatRK2.
From Verif Require Import FloatRKG FloatMetricModel FloatLU FloatMetric FloatMetric2 FloatMetric3 FloatMetric4 FloatMetric5 FloatMetric6 FloatMetric7.
Import ListNotations.
Open Scope R_scope.

Lemma impl_solves n f es y t : system n es -> implements n f es -> defined_for n es t (y t) -> solves_near n f y t -> solves_near n (program_rhs es) y t.
Proof.
  intros Hs Hi Hd Hsol. destruct (defined_box n es t (y t) Hs Hd) as (r & Hr & Hbox).
  destruct (curve_in_box n f y t r Hr Hsol) as (d & Hd' & Hc). destruct Hsol as (r1 & Hr1 & H1).
  exists (Rmin d r1). split; [apply Rmin_pos; assumption|]. intros u i Hu Hi'. assert (M1 := Rmin_l d r1). assert (M2 := Rmin_r d r1).
  rewrite <- (Hi u (y u) (Hbox _ _ (Hc u ltac:(lra))) i Hi'). apply H1; [lra|exact Hi'].
Qed.

Section Gen.
Variables (f_vec : V4 -> V4 -> Res (V4 * V4)) (es : nat -> pexpr).
Hypothesis Hs : system 8 es.
Hypothesis Hi : implements 8 (motion_rhs f_vec) es.
Hypothesis Hm : forall X W t, locally t (moves f_vec X W) -> defined_for 8 es t (join (X t) (W t)).
Hypothesis Hv : forall x v w a, f_vec x v = Ok (w, a) -> w = v.
Hypothesis Hok : forall t y, defined_for 8 es t y -> exists z, f_vec (pos y) (vel y) = Ok z.
Hypothesis Hdef : forall t x v z, f_vec x v = Ok z -> defined_for 8 es t (join x v).
Theorem gen_rk4 X W t0 T : T <> 0 -> (forall t, Rmin t0 (t0 + T) <= t <= Rmax t0 (t0 + T) -> locally t (moves f_vec X W)) ->
  exists C N0, (0 < N0)%nat /\ forall N tb k i, (N0 <= N)%nat -> (k <= N)%nat -> (i < 4)%nat ->
    let st := rk4_steps k (rk4_init (motion_rhs f_vec) t0 (join (X t0) (W t0)) tb (T / INR N)) in
    rk_t st = t0 + INR k * (T / INR N) /\
    Rabs (q4nth (pos (rk_y st)) i - q4nth (X (t0 + INR k * (T / INR N))) i) <= C * (Rabs T / INR N) ^ 4 /\
    Rabs (q4nth (vel (rk_y st)) i - q4nth (W (t0 + INR k * (T / INR N))) i) <= C * (Rabs T / INR N) ^ 4.
Proof.
  intros HT H. destruct (impl_converges 8 (motion_rhs f_vec) es (fun t => join (X t) (W t)) t0 T (motion_reads f_vec) Hs Hi HT) as (C & N0 & HN0 & Q).
  { intros t Ht. split; [apply Hm|apply moves_solves]; apply H; exact Ht. }
  exists C, N0. split; [exact HN0|]. intros N tb k i HN Hk Hi'. cbv zeta.
  destruct (Q N tb k i HN Hk ltac:(lia)) as [E A]. destruct (Q N tb k (4 + i)%nat HN Hk ltac:(lia)) as [_ B].
  split; [exact E|]. rewrite join_lo in A by exact Hi'. rewrite join_hi in B. unfold pos, vel. rewrite !q4nth_tab' by exact Hi'. split; [exact A|exact B].
Qed.
Theorem gen_exists x v z : f_vec x v = Ok z -> exists T X W, 0 < T /\ X 0 = x /\ W 0 = v /\ forall t, Rabs t <= T -> locally t (moves f_vec X W).
Proof.
  intros E. destruct (solution_exists 8 es 0 (join x v) Hs (Hdef 0 x v z E)) as (d & y & Hd & E0 & H).
  assert (Mv : forall t, Rabs t < d -> moves f_vec (fun u => pos (y u)) (fun u => vel (y u)) t).
  { intros t Ht. destruct (H t ltac:(rewrite Rminus_0_r; exact Ht)) as [Dt (r & Hr & Sol)].
    destruct (Hok t (y t) Dt) as [[w a] Ef]. assert (Ew := Hv _ _ _ _ Ef). subst w.
    assert (R : forall i, (i < 8)%nat -> is_derive (fun u => y u i) t (join (vel (y t)) a i)).
    { intros i Hi'. assert (A := Sol t i ltac:(rewrite Rminus_eq_0, Rabs_R0; exact Hr) Hi'). rewrite <- (Hi t (y t) Dt i Hi') in A. unfold motion_rhs in A. rewrite Ef in A. exact A. }
    exists a. split; [|split; [exact Ef|]].
    - intros k K. apply (is_derive_ext (fun u => y u k)); [intros u; unfold pos; rewrite q4nth_tab' by exact K; reflexivity|]. assert (A := R k ltac:(lia)). rewrite join_lo in A by exact K. exact A.
    - intros k K. apply (is_derive_ext (fun u => y u (4 + k)%nat)); [intros u; unfold vel; rewrite q4nth_tab' by exact K; reflexivity|]. assert (A := R (4 + k)%nat ltac:(lia)). rewrite join_hi in A. exact A. }
  exists (d / 2), (fun t => pos (y t)), (fun t => vel (y t)). split; [lra|]. split; [rewrite E0; apply pos_join|]. split; [rewrite E0; apply vel_join|].
  intros t Ht. assert (P : 0 < d / 2) by lra. exists (mkposreal _ P). intros u Hu. apply of_ball in Hu. cbn in Hu. apply Mv. replace u with (t + (u - t)) by ring. eapply Rle_lt_trans; [apply Rabs_triang|]. lra.
Qed.
Theorem gen_unique X W X' W' t : X 0 = X' 0 -> W 0 = W' 0 ->
  (forall u, Rmin 0 t <= u <= Rmax 0 t -> locally u (moves f_vec X W) /\ locally u (moves f_vec X' W')) -> X t = X' t /\ W t = W' t.
Proof.
  intros E1 E2 H. destruct (Req_dec t 0) as [-> |Hn]; [split; assumption|].
  destruct (gen_rk4 X W 0 t Hn) as (C & N0 & HN0 & Q). { rewrite Rplus_0_l. intros u Hu. apply (H u Hu). }
  destruct (gen_rk4 X' W' 0 t Hn) as (C' & N1 & HN1 & Q'). { rewrite Rplus_0_l. intros u Hu. apply (H u Hu). }
  rewrite <- E1, <- E2 in Q'.
  assert (K : forall i, (i < 4)%nat -> q4nth (X t) i = q4nth (X' t) i /\ q4nth (W t) i = q4nth (W' t) i).
  { intros i Hi'. split; apply (same_limit _ _ C C' t 4 (Nat.max N0 N1) ltac:(lia)); intros N HN; assert (Np : 0 < INR N) by (apply lt_0_INR; lia);
    destruct (Q N t N i ltac:(lia) (le_n N) Hi') as (_ & A1 & A2); destruct (Q' N t N i ltac:(lia) (le_n N) Hi') as (_ & B1 & B2);
    replace (0 + INR N * (t / INR N)) with t in A1, A2, B1, B2 by (field; lra); eexists; split; [exact A1|exact B1|exact A2|exact B2]. }
  split; apply q4_ext; intros i Hi'; apply (K i Hi').
Qed.
Section Float.
Variables (K : R) (fE : fenv -> R -> list R -> Res (list R)).
Hypothesis Hf : follows (good K) 8 es fE.
Lemma vec8_nth x v i : (i < 4)%nat -> nth i (vec8 x v) 0 = q4nth x i /\ nth (4 + i) (vec8 x v) 0 = q4nth v i.
Proof. intros H. destruct x, v. nat4' i H; split; reflexivity. Qed.
Theorem gen_rounded X W t0 T : T <> 0 -> (forall t, Rmin t0 (t0 + T) <= t <= Rmax t0 (t0 + T) -> locally t (moves f_vec X W)) ->
  exists C r, 0 <= C /\ 0 < r /\ forall u e, 0 <= u -> good K u e -> forall h N e0 t0' x0 v0 tb, 0 < h * T -> Rabs h <= r -> INR N * Rabs h <= Rabs T ->
  Rabs (t0' - t0) <= e0 -> near4 e0 x0 (X t0) -> near4 e0 v0 (W t0) -> e0 + u / Rabs h <= r ->
  forall k, (k <= N)%nat -> exists s, rk4_stepsF (fe_A e) 8 (fE e) k (rk4_initA t0' (vec8 x0 v0) tb h) = Ok s /\
    Rabs (rf_t s - (t0 + INR k * h)) <= C * (e0 + Rabs h ^ 4 + u / Rabs h) /\
    forall i, (i < 4)%nat -> Rabs (nth i (rf_y s) 0 - q4nth (X (t0 + INR k * h)) i) <= C * (e0 + Rabs h ^ 4 + u / Rabs h) /\
      Rabs (nth (4 + i) (rf_y s) 0 - q4nth (W (t0 + INR k * h)) i) <= C * (e0 + Rabs h ^ 4 + u / Rabs h).
Proof.
  intros HT H. destruct (rk4_roundedF fenv fe_A (good K) 8 es fE (fun u e Hg => proj1 Hg) Hf Hs (fun t => join (X t) (W t)) t0 T HT) as (C & r & HC & Hr & Q).
  { intros t Ht. assert (D := Hm X W t (H t Ht)). split; [exact D|]. apply (impl_solves 8 (motion_rhs f_vec)); [exact Hs|exact Hi|exact D|apply moves_solves, H, Ht]. }
  exists C, r. split; [exact HC|]. split; [exact Hr|]. intros u e Hu0 He h N e0 t0' x0 v0 tb HhT Hh HN Ht Hx Hv' Hb k Hk.
  destruct (Q u e Hu0 He h N e0 t0' (vec8 x0 v0) tb HhT Hh HN Ht) with (k := k) as (s & Es & E1 & E2).
  { intros i Hi'. destruct (Nat.lt_ge_cases i 4) as [L|L].
    - rewrite (proj1 (vec8_nth x0 v0 i L)), join_lo by exact L. apply Hx, L.
    - replace i with (4 + (i - 4))%nat by lia. rewrite (proj2 (vec8_nth x0 v0 (i - 4) ltac:(lia))), join_hi. apply Hv'. lia. }
  { exact Hb. }
  { exact Hk. }
  exists s. split; [exact Es|]. split; [exact E1|]. intros i Hi'. assert (A := E2 i ltac:(lia)). assert (B := E2 (4 + i)%nat ltac:(lia)). rewrite join_lo in A by exact Hi'. rewrite join_hi in B. split; [exact A|exact B].
Qed.
End Float.
End Gen.

(** *** the three classes *)
Section Classes.
Variables (c G Cc : R) (o : mobj).
Lemma kerr_vel : forall x v w a, kerr_f_vec c G Cc o x v = Ok (w, a) -> w = v.
Proof. intros x v w a E. rewrite <- (xz_vec 0 x v), <- (velz_vec 0 x v) in E. apply kerr_f_inv in E. destruct E as (_ & _ & -> & _). apply velz_vec. Qed.
Lemma sch_vel : forall x v w a, sch_f_vec c G o x v = Ok (w, a) -> w = v.
Proof. intros x v w a E. rewrite <- (xz_vec 0 x v), <- (velz_vec 0 x v) in E. apply sch_f_inv in E. destruct E as (_ & _ & -> & _). apply velz_vec. Qed.
Lemma kerr_valid x v z : kerr_f_vec c G Cc o x v = Ok z -> valid_spin o /\ mo_sys o = BL.
Proof. destruct z as [w a]. intros E. rewrite <- (xz_vec 0 x v), <- (velz_vec 0 x v) in E. apply kerr_f_inv in E. destruct E as ((S & V & _) & _). split; assumption. Qed.
Lemma kn_valid x v z : kn_f_vec c G Cc o x v = Ok z -> valid_spin o /\ mo_sys o = BL.
Proof. destruct z as [w a]. intros E. rewrite <- (xz_vec 0 x v), <- (velz_vec 0 x v) in E. apply kn_f_inv in E. destruct E as ((S & V & _) & _). split; assumption. Qed.
Lemma sch_valid x v z : sch_f_vec c G o x v = Ok z -> mo_sys o = Sph.
Proof. destruct z as [w a]. intros E. rewrite <- (xz_vec 0 x v), <- (velz_vec 0 x v) in E. apply sch_f_inv in E. apply E. Qed.
Hypothesis Hc : 0 < c.
Let Hc' : c <> 0. Proof. lra. Qed.
Lemma kerr_ok t y : valid_spin o -> mo_sys o = BL -> defined_for 8 (kerrP c G Cc o) t y -> exists z, kerr_f_vec c G Cc o (pos y) (vel y) = Ok z.
Proof.
  intros V S Hd. destruct (kerr_needs c G Cc o Hc' _ _ _ lt48 Hd) as (D1 & D2 & D3). set (z := point t y) in *.
  assert (D3' := D3). rewrite (kerr_kn_gM c G Cc o z D1 D2) in D3'. assert (Sn := kn_det_sin c G Cc o Hc' z V S D1 D2 D3').
  exact (kerr_f_vec_defined c G Cc o (xz z) (velz z) Hc' (proj2 (dom_okz c G Cc o z) (Logic.conj S (Logic.conj V (Logic.conj D1 D2)))) Sn).
Qed.
Lemma kn_ok t y : 0 < G -> 0 < Cc -> valid_spin o -> mo_sys o = BL -> defined_for 8 (knPq c G Cc o) t y -> exists z, kn_f_vec c G Cc o (pos y) (vel y) = Ok z.
Proof.
  intros HG HC V S Hd. destruct (kn_needs c G Cc o Hc' _ _ _ lt48 Hd) as (D1 & D2 & D3). set (z := point t y) in *.
  assert (Sn := kn_det_sin c G Cc o Hc' z V S D1 D2 D3).
  exact (kn_f_vec_defined c G Cc o (xz z) (velz z) Hc HG HC (proj2 (dom_okz c G Cc o z) (Logic.conj S (Logic.conj V (Logic.conj D1 D2)))) Sn).
Qed.
Lemma kerr_start t x v z : kerr_f_vec c G Cc o x v = Ok z -> defined_for 8 (kerrP c G Cc o) t (join x v).
Proof.
  destruct z as [w a]. intros E. assert (E' : kerr_f_vec c G Cc o (xz (point t (join x v))) (velz (point t (join x v))) = Ok (w, a)) by (rewrite xz_point, velz_point, pos_join, vel_join; exact E).
  destruct (kerr_f_inv c G Cc o _ _ _ E') as ((_ & _ & D1 & D2) & D3 & _). intros i Hi. apply kerr_defined; assumption.
Qed.
Lemma kn_start t x v z : kn_f_vec c G Cc o x v = Ok z -> defined_for 8 (knPq c G Cc o) t (join x v).
Proof.
  destruct z as [w a]. intros E. assert (E' : kn_f_vec c G Cc o (xz (point t (join x v))) (velz (point t (join x v))) = Ok (w, a)) by (rewrite xz_point, velz_point, pos_join, vel_join; exact E).
  destruct (kn_f_inv c G Cc o _ _ _ E') as ((_ & _ & D1 & D2) & D3 & _). intros i Hi. apply kn_defined; assumption.
Qed.
Lemma motion_ok f X W t : locally t (moves f X W) -> exists z, f (X t) (W t) = Ok z.
Proof. intros H. destruct (locally_singleton _ _ H) as (acc & _ & E & _). exists (W t, acc). exact E. Qed.
Lemma start_in t0 T : Rmin t0 (t0 + T) <= t0 <= Rmax t0 (t0 + T).
Proof. split; [apply Rmin_l|apply Rmax_l]. Qed.
End Classes.

Theorem kerr_motion_exists c G Cc o x v z : 0 < c -> kerr_f_vec c G Cc o x v = Ok z ->
  exists T X W, 0 < T /\ X 0 = x /\ W 0 = v /\ forall t, Rabs t <= T -> locally t (moves (kerr_f_vec c G Cc o) X W).
Proof.
  intros Hc E. assert (Hc' : c <> 0) by lra. destruct (kerr_valid _ _ _ _ _ _ _ E) as [V S].
  apply (gen_exists _ (kerrP c G Cc o) (kerr_system c G Cc o Hc') (kerr_implements c G Cc o Hc' V S) (kerr_vel c G Cc o) (fun t y => kerr_ok c G Cc o Hc t y V S) (kerr_start c G Cc o Hc) x v z E).
Qed.
Theorem kn_charged_motion_exists c G Cc o x v z : 0 < c -> 0 < G -> 0 < Cc -> kn_f_vec c G Cc o x v = Ok z ->
  exists T X W, 0 < T /\ X 0 = x /\ W 0 = v /\ forall t, Rabs t <= T -> locally t (moves (kn_f_vec c G Cc o) X W).
Proof.
  intros Hc HG HC E. assert (Hc' : c <> 0) by lra. destruct (kn_valid _ _ _ _ _ _ _ E) as [V S].
  apply (gen_exists _ (knPq c G Cc o) (kn_system c G Cc o Hc') (kn_implements' c G Cc o Hc' Hc HG HC V S) (kn_velocity c G Cc o) (fun t y => kn_ok c G Cc o Hc t y HG HC V S) (kn_start c G Cc o Hc) x v z E).
Qed.
Theorem kerr_motion_unique c G Cc o X W X' W' t : 0 < c -> X 0 = X' 0 -> W 0 = W' 0 ->
  (forall u, Rmin 0 t <= u <= Rmax 0 t -> locally u (moves (kerr_f_vec c G Cc o) X W) /\ locally u (moves (kerr_f_vec c G Cc o) X' W')) -> X t = X' t /\ W t = W' t.
Proof.
  intros Hc E1 E2 H. assert (Hc' : c <> 0) by lra. destruct (motion_ok _ _ _ _ (proj1 (H 0 (Logic.conj (Rmin_l _ _) (Rmax_l _ _))))) as [z E]. destruct (kerr_valid _ _ _ _ _ _ _ E) as [V S].
  apply (gen_unique _ (kerrP c G Cc o) (kerr_system c G Cc o Hc') (kerr_implements c G Cc o Hc' V S) (kerr_moves_defined c G Cc o Hc')); assumption.
Qed.
Theorem kn_charged_motion_unique c G Cc o X W X' W' t : 0 < c -> 0 < G -> 0 < Cc -> X 0 = X' 0 -> W 0 = W' 0 ->
  (forall u, Rmin 0 t <= u <= Rmax 0 t -> locally u (moves (kn_f_vec c G Cc o) X W) /\ locally u (moves (kn_f_vec c G Cc o) X' W')) -> X t = X' t /\ W t = W' t.
Proof.
  intros Hc HG HC E1 E2 H. assert (Hc' : c <> 0) by lra. destruct (motion_ok _ _ _ _ (proj1 (H 0 (Logic.conj (Rmin_l _ _) (Rmax_l _ _))))) as [z E]. destruct (kn_valid _ _ _ _ _ _ _ E) as [V S].
  apply (gen_unique _ (knPq c G Cc o) (kn_system c G Cc o Hc') (kn_implements' c G Cc o Hc' Hc HG HC V S) (kn_moves_defined c G Cc o Hc')); assumption.
Qed.
(** RK4naive in exact arithmetic *)
Theorem kerr_rk4 c G Cc o X W t0 T : 0 < c -> T <> 0 -> (forall t, Rmin t0 (t0 + T) <= t <= Rmax t0 (t0 + T) -> locally t (moves (kerr_f_vec c G Cc o) X W)) ->
  exists C N0, (0 < N0)%nat /\ forall N tb k i, (N0 <= N)%nat -> (k <= N)%nat -> (i < 4)%nat ->
    let st := rk4_steps k (rk4_init (motion_rhs (kerr_f_vec c G Cc o)) t0 (join (X t0) (W t0)) tb (T / INR N)) in
    rk_t st = t0 + INR k * (T / INR N) /\
    Rabs (q4nth (pos (rk_y st)) i - q4nth (X (t0 + INR k * (T / INR N))) i) <= C * (Rabs T / INR N) ^ 4 /\
    Rabs (q4nth (vel (rk_y st)) i - q4nth (W (t0 + INR k * (T / INR N))) i) <= C * (Rabs T / INR N) ^ 4.
Proof.
  intros Hc HT H. assert (Hc' : c <> 0) by lra. destruct (motion_ok _ _ _ _ (H t0 (start_in t0 T))) as [z E]. destruct (kerr_valid _ _ _ _ _ _ _ E) as [V S].
  apply (gen_rk4 _ (kerrP c G Cc o) (kerr_system c G Cc o Hc') (kerr_implements c G Cc o Hc' V S) (kerr_moves_defined c G Cc o Hc')); assumption.
Qed.
Theorem kn_charged_rk4 c G Cc o X W t0 T : 0 < c -> 0 < G -> 0 < Cc -> T <> 0 -> (forall t, Rmin t0 (t0 + T) <= t <= Rmax t0 (t0 + T) -> locally t (moves (kn_f_vec c G Cc o) X W)) ->
  exists C N0, (0 < N0)%nat /\ forall N tb k i, (N0 <= N)%nat -> (k <= N)%nat -> (i < 4)%nat ->
    let st := rk4_steps k (rk4_init (motion_rhs (kn_f_vec c G Cc o)) t0 (join (X t0) (W t0)) tb (T / INR N)) in
    rk_t st = t0 + INR k * (T / INR N) /\
    Rabs (q4nth (pos (rk_y st)) i - q4nth (X (t0 + INR k * (T / INR N))) i) <= C * (Rabs T / INR N) ^ 4 /\
    Rabs (q4nth (vel (rk_y st)) i - q4nth (W (t0 + INR k * (T / INR N))) i) <= C * (Rabs T / INR N) ^ 4.
Proof.
  intros Hc HG HC HT H. assert (Hc' : c <> 0) by lra. destruct (motion_ok _ _ _ _ (H t0 (start_in t0 T))) as [z E]. destruct (kn_valid _ _ _ _ _ _ _ E) as [V S].
  apply (gen_rk4 _ (knPq c G Cc o) (kn_system c G Cc o Hc') (kn_implements' c G Cc o Hc' Hc HG HC V S) (kn_moves_defined c G Cc o Hc')); assumption.
Qed.
(** RK4naive in floating point *)
Theorem sch_rk4_rounded K c G o X W t0 T : 0 <= K -> 0 < c -> T <> 0 -> (forall t, Rmin t0 (t0 + T) <= t <= Rmax t0 (t0 + T) -> locally t (moves (sch_f_vec c G o) X W)) ->
  exists C r, 0 <= C /\ 0 < r /\ forall u e, 0 <= u -> good K u e -> forall h N e0 t0' x0 v0 tb, 0 < h * T -> Rabs h <= r -> INR N * Rabs h <= Rabs T ->
  Rabs (t0' - t0) <= e0 -> near4 e0 x0 (X t0) -> near4 e0 v0 (W t0) -> e0 + u / Rabs h <= r ->
  forall k, (k <= N)%nat -> exists s, rk4_stepsF (fe_A e) 8 (sch_fA e c G o) k (rk4_initA t0' (vec8 x0 v0) tb h) = Ok s /\
    Rabs (rf_t s - (t0 + INR k * h)) <= C * (e0 + Rabs h ^ 4 + u / Rabs h) /\
    forall i, (i < 4)%nat -> Rabs (nth i (rf_y s) 0 - q4nth (X (t0 + INR k * h)) i) <= C * (e0 + Rabs h ^ 4 + u / Rabs h) /\
      Rabs (nth (4 + i) (rf_y s) 0 - q4nth (W (t0 + INR k * h)) i) <= C * (e0 + Rabs h ^ 4 + u / Rabs h).
Proof.
  intros HK Hc HT H. assert (Hc' : c <> 0) by lra. destruct (motion_ok _ _ _ _ (H t0 (start_in t0 T))) as [z E]. assert (S := sch_valid _ _ _ _ _ _ E).
  exact (gen_rounded _ (schP c G o) (sch_system c G o) (sch_implements c G o S) (sch_moves_defined c G o Hc') K (fun e => sch_fA e c G o) (sch_follows c G o Hc' K HK S) X W t0 T HT H).
Qed.
Theorem kerr_rk4_rounded K c G Cc o X W t0 T : 0 <= K -> 0 < c -> T <> 0 -> (forall t, Rmin t0 (t0 + T) <= t <= Rmax t0 (t0 + T) -> locally t (moves (kerr_f_vec c G Cc o) X W)) ->
  exists C r, 0 <= C /\ 0 < r /\ forall u e, 0 <= u -> good K u e -> forall h N e0 t0' x0 v0 tb, 0 < h * T -> Rabs h <= r -> INR N * Rabs h <= Rabs T ->
  Rabs (t0' - t0) <= e0 -> near4 e0 x0 (X t0) -> near4 e0 v0 (W t0) -> e0 + u / Rabs h <= r ->
  forall k, (k <= N)%nat -> exists s, rk4_stepsF (fe_A e) 8 (kerr_fA e c G Cc o) k (rk4_initA t0' (vec8 x0 v0) tb h) = Ok s /\
    Rabs (rf_t s - (t0 + INR k * h)) <= C * (e0 + Rabs h ^ 4 + u / Rabs h) /\
    forall i, (i < 4)%nat -> Rabs (nth i (rf_y s) 0 - q4nth (X (t0 + INR k * h)) i) <= C * (e0 + Rabs h ^ 4 + u / Rabs h) /\
      Rabs (nth (4 + i) (rf_y s) 0 - q4nth (W (t0 + INR k * h)) i) <= C * (e0 + Rabs h ^ 4 + u / Rabs h).
Proof.
  intros HK Hc HT H. assert (Hc' : c <> 0) by lra. destruct (motion_ok _ _ _ _ (H t0 (start_in t0 T))) as [z E]. destruct (kerr_valid _ _ _ _ _ _ _ E) as [V S].
  exact (gen_rounded _ (kerrP c G Cc o) (kerr_system c G Cc o Hc') (kerr_implements c G Cc o Hc' V S) (kerr_moves_defined c G Cc o Hc') K (fun e => kerr_fA e c G Cc o) (kerr_follows c G Cc o Hc' K HK V S) X W t0 T HT H).
Qed.
Theorem kn_rk4_rounded K c G Cc o X W t0 T : 0 <= K -> 0 < c -> 0 < G -> 0 < Cc -> T <> 0 -> (forall t, Rmin t0 (t0 + T) <= t <= Rmax t0 (t0 + T) -> locally t (moves (kn_f_vec c G Cc o) X W)) ->
  exists C r, 0 <= C /\ 0 < r /\ forall u e, 0 <= u -> good K u e -> forall h N e0 t0' x0 v0 tb, 0 < h * T -> Rabs h <= r -> INR N * Rabs h <= Rabs T ->
  Rabs (t0' - t0) <= e0 -> near4 e0 x0 (X t0) -> near4 e0 v0 (W t0) -> e0 + u / Rabs h <= r ->
  forall k, (k <= N)%nat -> exists s, rk4_stepsF (fe_A e) 8 (kn_fA e c G Cc o) k (rk4_initA t0' (vec8 x0 v0) tb h) = Ok s /\
    Rabs (rf_t s - (t0 + INR k * h)) <= C * (e0 + Rabs h ^ 4 + u / Rabs h) /\
    forall i, (i < 4)%nat -> Rabs (nth i (rf_y s) 0 - q4nth (X (t0 + INR k * h)) i) <= C * (e0 + Rabs h ^ 4 + u / Rabs h) /\
      Rabs (nth (4 + i) (rf_y s) 0 - q4nth (W (t0 + INR k * h)) i) <= C * (e0 + Rabs h ^ 4 + u / Rabs h).
Proof.
  intros HK Hc HG HC HT H. assert (Hc' : c <> 0) by lra. destruct (motion_ok _ _ _ _ (H t0 (start_in t0 T))) as [z E]. destruct (kn_valid _ _ _ _ _ _ _ E) as [V S].
  exact (gen_rounded _ (knPq c G Cc o) (kn_system c G Cc o Hc') (kn_implements' c G Cc o Hc' Hc HG HC V S) (kn_moves_defined c G Cc o Hc') K (fun e => kn_fA e c G Cc o) (kn_follows c G Cc o Hc' K HK HG HC V S) X W t0 T HT H).
Qed.

(** *** IEEE arithmetic *)
Definition tan_lib (F : format) (L : libm) : Prop := forall x,
  (cos x <> 0 -> 1 <= Rabs (tan x) -> ulp4 F (l_tan L x) (tan x)) /\ (cos x = 0 -> exists t, l_tan L x = Ok t /\ 1 <= uF F * Rabs t).
Theorem ieee_good K F L inv : usable F -> libm_ok F L -> tan_lib F L -> l_pow L 0 2 = Ok 0 -> inverts K (uF F) (mkfenv (ieee F L) inv) -> good K (uF F) (mkfenv (ieee F L) inv).
Proof.
  intros HU HL HT HP HI. split; [apply ieee_accurate; assumption|]. split; [|split; [exact HI|]].
  - intros x _. destruct (HT x) as [T1 T2]. split; [|exact T2]. intros Hc H1. destruct (T1 Hc H1) as (t & E & B). exists t. split; [exact E|]. eapply Rle_trans; [exact B|].
    destruct HU as (U1 & U2 & U3). assert (Q : Flocq.Core.Raux.bpow Flocq.Core.Zaux.radix2 (emin F + 2) <= Flocq.Core.Raux.bpow Flocq.Core.Zaux.radix2 (3 - prec F)) by (apply Flocq.Core.Raux.bpow_le; lia).
    assert (P0 := Flocq.Core.Raux.bpow_gt_0 Flocq.Core.Zaux.radix2 (3 - prec F)).
    assert (E2 : uF F = 2 * Flocq.Core.Raux.bpow Flocq.Core.Zaux.radix2 (3 - prec F)) by (unfold uF; replace (4 - prec F)%Z with (1 + (3 - prec F))%Z by ring; rewrite Flocq.Core.Raux.bpow_plus; reflexivity).
    rewrite E2. nra.
  - assert (Z0 : finF F 0 = Ok 0). { unfold finF, rF. rewrite Flocq.Core.Generic_fmt.round_0 by apply Flocq.Core.Generic_fmt.valid_rnd_N. rewrite Rabs_R0. destruct (Rlt_dec 0 (big F)) as [|N]; [reflexivity|]. exfalso. apply N. apply Flocq.Core.Raux.bpow_gt_0. }
    split; [exact Z0|]. split; [exact HP|]. split; [intros y; cbn; unfold mulF; rewrite Rmult_0_l; exact Z0|]. split.
    + intros y Hy. cbn. destruct (Req_EM_T y 0); [contradiction|]. unfold Rdiv. rewrite Rmult_0_l. exact Z0.
    + cbn. destruct (Rle_dec 0 0) as [N|N]; [|lra]. rewrite sqrt_0. exact Z0.
Qed.
(** nothing need be assumed of numpy.linalg.inv when it is LAPACK's elimination in the same arithmetic *)
Theorem ieee_lu_good F L : usable F -> libm_ok F L -> tan_lib F L -> l_pow L 0 2 = Ok 0 -> good 0 (uF F) (mkfenv (ieee F L) (lu_inv (ieee F L))).
Proof. intros H1 H2 H3 H4. apply ieee_good; try assumption. left. intros m. reflexivity. Qed.
(** a libm that rounds correctly *)
Definition nearest_libm' (F : format) : libm :=
  let L := nearest_libm F in mklibm (l_pow L) (l_powr L) (l_sin L) (l_cos L) (fun x => if Req_EM_T (cos x) 0 then Ok (/ uF F) else l_tan L x) (l_log L) (l_exp L).
Lemma nearest_good F : usable F -> good 0 (uF F) (mkfenv (ieee F (nearest_libm' F)) (lu_inv (ieee F (nearest_libm' F)))).
Proof.
  intros HU. assert (U0 : 0 < uF F) by apply Flocq.Core.Raux.bpow_gt_0. apply ieee_lu_good; [exact HU| | |].
  - destruct (nearest_libm_ok F HU) as [A1 A2 A3 A4 A5 A6 A7]. constructor; [exact A1|exact A2|exact A3|exact A4| |exact A6|exact A7]. intros x Hx. cbn [l_tan nearest_libm']. destruct (Req_EM_T (cos x) 0); [contradiction|]. apply A5. exact Hx.
  - intros x. cbn [l_tan nearest_libm']. destruct (Req_EM_T (cos x) 0) as [E|E].
    + split; [contradiction|]. intros _. exists (/ uF F). split; [reflexivity|]. rewrite Rabs_right by (apply Rle_ge, Rlt_le, Rinv_0_lt_compat; exact U0). right. field. lra.
    + split; [|contradiction]. intros _ _. apply rF_ulp4. exact HU.
  - change (Ok (rF F (0 * (0 * 1))) = Ok 0). rewrite Rmult_0_l. unfold rF. rewrite Flocq.Core.Generic_fmt.round_0 by apply Flocq.Core.Generic_fmt.valid_rnd_N. reflexivity.
Qed.
