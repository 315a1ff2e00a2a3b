(** C118: the 4-velocity (coordinates/utils.py v0, coordinates/differential.py position and velocity) in floating point. *)
From Coq Require Import String Reals List ZArith Lra Lia Bool.
From Coquelicot Require Import Coquelicot.
From Verif Require Import Base Calc DualModel DualSpec DualProofs DualDiff GeoUtilsModel GeoUtilsSpec GeoUtilsProofs CoordModel CoordProofs2 ConvModel ConvProofs ConvProofs2 FantasyModel FantasyHam ProgCont FantasyOrder
  MetricModel MetricSpec MetricProofs MetricProofs2 MetricProofs3 MetricProofs4 FloatModel FloatTrack FloatRK FloatMetricModel FloatMetric FloatMetric2 FloatMetric3 FloatMetric4 FloatMetric5 FloatMetric6.
Import ListNotations.
Open Scope R_scope.

(** ** model *)
(** variables of the programs of v0: g[i, j] is 4 i + j; v1, v2, v3 are 16, 17, 18 *)
Definition gv (i j : nat) : pexpr := EVar (4 * i + j).
(** coordinates/utils.py:250-260 *)
Definition v0B : pexpr := #2 .* (gv 0 1 .* EVar 16 .+ gv 0 2 .* EVar 17 .+ gv 0 3 .* EVar 18).
Definition v0C (c : R) : pexpr :=
  (gv 1 1 .* EVar 16 .^ 2 .+ gv 2 2 .* EVar 17 .^ 2 .+ gv 3 3 .* EVar 18 .^ 2)
  .+ #2 .* EVar 16 .* (gv 1 2 .* EVar 17 .+ gv 1 3 .* EVar 18)
  .+ #2 .* EVar 17 .* gv 2 3 .* EVar 18
  .+ #(-1) .* EConst c .^ 2.
Definition v0D (c : R) : pexpr := v0B .^ 2 .- #4 .* gv 0 0 .* v0C c.
(** coordinates/utils.py:225-264 *)
Definition v0A (A : arith) (c : R) (g : M4) (a b d : R) : Res R :=
  let env := fun k => nth k (mat_list g ++ [a; b; d]) 0 in
  let* D := runF A env (v0D c) in
  let* nb := runF A env (ENeg v0B) in
  let* s := a_sqrt A D in
  let* num := a_add A nb s in
  let* den := runF A env (#2 .* gv 0 0) in
  a_div A num den.
(** differential.py:77-87, 284-299, 496-511 (position: c t, then the SI values) and 97-126, 309-338, 521-550 (v_t), 128-151, 340-363, 552-575 (velocity);
    x: the SI values of t and the spatial coordinates, v: the SI values of the 3-velocity (c0 v is not used).  Units: .si.value is not modelled here, x and v are its results. *)
Definition four_velA (e : fenv) (c : R) (cov : V4 -> Res M4) (x v : V4) : Res (V4 * V4) :=
  let* cc := a_num (fe_A e) c in
  let* x0 := a_mul (fe_A e) cc (c0 x) in
  let p := mkQ4 x0 (c1 x) (c2 x) (c3 x) in
  let* g := cov p in
  let* vt := v0A (fe_A e) c g (c1 v) (c2 v) (c3 v) in
  Ok (p, mkQ4 vt (c1 v) (c2 v) (c3 v)).
(** the same in exact arithmetic: df_position and velocity of ConvModel.v *)
Definition si_position (c : R) (x : V4) : V4 := mkQ4 (c * c0 x) (c1 x) (c2 x) (c3 x).
Definition four_vel (vt : R) (v : V4) : V4 := mkQ4 vt (c1 v) (c2 v) (c3 v).
Definition disc (c : R) (g : M4) (v : V4) : R := let '(A, B, C) := v0_coeffs c g (c1 v) (c2 v) (c3 v) in B ^ 2 - 4 * A * C.

(** ** tracking *)
Section Track.
Context {J : Type} (F : (J -> Prop) -> Prop) {FF : Filter F} (u : J -> R) (K : R) (e : J -> fenv).
Hypothesis HK : 0 <= K.
Hypothesis Hu0 : F (fun j => 0 <= u j).
Hypothesis Hu : filterlim u F (locally 0).
Hypothesis HE : F (fun j => good K (u j) (e j)).
Definition env0 (g : M4) (v : V4) (k : nat) : R := nth k (mat_list g ++ [c1 v; c2 v; c3 v]) 0.
Lemma env0_hi g v k : (k < 3)%nat -> env0 g v (16 + k) = q4nth v (S k).
Proof. intros H. unfold env0. rewrite app_nth2; [|cbn; lia]. destruct g as [g0 g1 g2 g3], v. do 3 (destruct k as [|k]; [reflexivity|]). lia. Qed.
Lemma env0_lo g v k : (k < 16)%nat -> env0 g v k = nth k (mat_list g) 0.
Proof. intros H. unfold env0. apply app_nth1. cbn. lia. Qed.
Lemma env0_track g' g v' v : nrM F u g' (fun _ => g) g -> (forall i, (i < 4)%nat -> nr F u (fun j => q4nth (v' j) i) (fun _ => q4nth v i) (q4nth v i)) ->
  nrE F u 19 (fun j => env0 (g' j) (v' j)) (fun _ => env0 g v) (env0 g v).
Proof.
  intros Hg Hv i Hi. destruct (Nat.lt_ge_cases i 16) as [L|L].
  - rewrite (env0_lo g v) by exact L. generalize (mat_list_ok F u g' (fun _ => g) g Hg i L). apply (nr_ext_all F u); intros j; [symmetry; apply env0_lo; exact L|reflexivity].
  - replace i with (16 + (i - 16))%nat by lia. rewrite env0_hi by lia. generalize (Hv (S (i - 16)) ltac:(lia)). apply (nr_ext_all F u); intros j; [rewrite env0_hi by lia; reflexivity|reflexivity].
Qed.
Lemma gv_env g v i j : (i < 4)%nat -> (j < 4)%nat -> meaning (env0 g v) (gv i j) = mnth g i j.
Proof. intros Hi Hj. cbn [gv meaning]. rewrite env0_lo, nth_mat_list by lia. f_equal; [symmetry; apply (Nat.div_unique _ 4 i j); lia|symmetry; apply (Nat.mod_unique _ 4 i j); lia]. Qed.
Lemma v0_mean c g v : meaning (env0 g v) (v0D c) = disc c g v /\ meaning (env0 g v) (ENeg v0B) = - snd (fst (v0_coeffs c g (c1 v) (c2 v) (c3 v))) /\ meaning (env0 g v) (#2 .* gv 0 0) = 2 * mnth g 0 0.
Proof.
  assert (A1 := env0_hi g v 0 ltac:(lia)). assert (A2 := env0_hi g v 1 ltac:(lia)). assert (A3 := env0_hi g v 2 ltac:(lia)). cbn [Nat.add] in A1, A2, A3.
  unfold disc, v0_coeffs, v0D, v0B, v0C. cbn [meaning fst snd]. rewrite A1, A2, A3. 
  repeat match goal with |- context [env0 g v (?a)] => fail 1 | |- context [meaning (env0 g v) (gv ?i ?j)] => rewrite (gv_env g v i j) by lia end.
  destruct v as [q0 q1 q2 q3]. cbn [q4nth c1 c2 c3]. split; [|split; [|reflexivity]].
  - change (powerRZ ?a 2) with (a ^ 2). unfold powerRZ. simpl Pos.to_nat. ring.
  - ring.
Qed.
Lemma v0_track c g' g v' v w : v0 c g (c1 v) (c2 v) (c3 v) = Ok w -> 0 < disc c g v -> nrM F u g' (fun _ => g) g -> (forall i, (i < 4)%nat -> nr F u (fun j => q4nth (v' j) i) (fun _ => q4nth v i) (q4nth v i)) ->
  okto F u (fun j => v0A (AA e j) c (g' j) (c1 (v' j)) (c2 (v' j)) (c3 (v' j))) (fun _ => w) w.
Proof.
  intros Hw Hd Hg Hv. assert (N := env0_track g' g v' v Hg Hv). destruct (v0_mean c g v) as (M1 & M2 & M3).
  unfold v0 in Hw. assert (Dd := Hd). unfold disc in Dd. destruct (v0_coeffs c g (c1 v) (c2 v) (c3 v)) as [[A B] C] eqn:E. cbn [fst snd] in M2.
  assert (EA : A = mnth g 0 0) by (unfold v0_coeffs in E; congruence).
  unfold np_sqrt in Hw. destruct (Rle_dec 0 (B ^ 2 - 4 * A * C)) as [_|X]; [|lra]. cbn [bindR] in Hw. unfold np_div in Hw. destruct (Req_EM_T (2 * A) 0) as [|HA]; [discriminate|]. apply Ok_inj in Hw. subst w.
  unfold v0A. change (fun k => nth k (mat_list ?g ++ [c1 ?v; c2 ?v; c3 ?v]) 0) with (env0 g v).
  assert (ED : disc c g v = B ^ 2 - 4 * A * C) by (unfold disc; rewrite E; reflexivity). rewrite ED in M1. clear ED.
  assert (T1 := runF_ok F u K e Hu0 Hu HE 19 _ _ _ (v0D c) N eq_refl). assert (T2 := runF_ok F u K e Hu0 Hu HE 19 _ _ _ (ENeg v0B) N eq_refl). assert (T3 := runF_ok F u K e Hu0 Hu HE 19 _ _ _ (#2 .* gv 0 0) N eq_refl).
  cbv beta in T1, T2, T3. rewrite M1 in T1. rewrite M2 in T2. rewrite M3, <- EA in T3.
  assert (d1 : defined_at (env0 g v) (v0D c)) by (cbn; repeat split; try (left; discriminate); try (right; lia)).
  assert (d2 : defined_at (env0 g v) (ENeg v0B)) by (cbn; tauto).
  assert (d3 : defined_at (env0 g v) (#2 .* gv 0 0)) by (cbn; tauto).
  apply (okT_bind F _ _ _ _ (T1 d1)). intros vD ND. apply (okT_bind F _ _ _ _ (T2 d2)). intros vB NB.
  apply (okT_bind F _ _ _ _ (okto_sqrt F u (AA e) Hu0 Hu (HAA F u K e HE) _ _ _ Dd ND)). intros vs Ns.
  apply (okT_bind F _ _ _ _ (okto_add F u (AA e) Hu0 Hu (HAA F u K e HE) _ _ _ _ _ _ NB Ns)). intros vn Nn.
  apply (okT_bind F _ _ _ _ (T3 d3)). intros vd Nd.
  exact (okto_div F u (AA e) Hu0 Hu (HAA F u K e HE) _ _ _ _ _ _ HA Nn Nd).
Qed.
End Track.

(** a metric_covariant on floats follows the exact one *)
Definition cov_follows (K : R) (covE : fenv -> V4 -> Res M4) (cov : V4 -> Res M4) : Prop :=
  forall (J : Type) (F : (J -> Prop) -> Prop) (FF : Filter F) (u : J -> R) (e : J -> fenv), F (fun j => 0 <= u j) -> filterlim u F (locally 0) -> F (fun j => good K (u j) (e j)) ->
  forall (p' : J -> V4) (p : V4) g, cov p = Ok g -> (forall i, (i < 4)%nat -> nr F u (fun j => q4nth (p' j) i) (fun _ => q4nth p i) (q4nth p i)) ->
  oktoM F u (fun j => covE (e j) (p' j)) (fun _ => g) g.
Lemma zpos_track {J} (F : (J -> Prop) -> Prop) {FF : Filter F} u (Hu0 : F (fun j => 0 <= u j)) (p' : J -> V4) p : (forall i, (i < 4)%nat -> nr F u (fun j => q4nth (p' j) i) (fun _ => q4nth p i) (q4nth p i)) ->
  nrE F u 9 (fun j => zpos (p' j)) (fun _ => zpos p) (zpos p).
Proof.
  intros H i Hi. destruct i as [|i]; [apply (nr_const F u)|].
  assert (A0 := H 0%nat ltac:(lia)). assert (A1 := H 1%nat ltac:(lia)). assert (A2 := H 2%nat ltac:(lia)). assert (A3 := H 3%nat ltac:(lia)).
  do 4 (destruct i as [|i]; [assumption|]). do 4 (destruct i as [|i]; [apply (nr_const F u)|]). lia.
Qed.
Lemma sch_cov_follows K c G o : c <> 0 -> cov_follows K (fun e => sch_covA e c G o) (MetricModel.sch_cov c G o).
Proof.
  intros Hc J F FF u e Hu0 Hu HE p' p g H N. rewrite <- (xz_pos p) in H. apply sch_cov_inv in H. destruct H as (S & D1 & D2 & ->).
  unfold sch_covA. rewrite S. exact (sch_cov_track F u K e Hu0 Hu HE c G o Hc _ _ _ (zpos_track F u Hu0 p' p N) D1 D2).
Qed.
Lemma kerr_cov_follows K c G Cc o : c <> 0 -> cov_follows K (fun e => kerr_covA e c G Cc o) (kerr_cov c G Cc o).
Proof.
  intros Hc J F FF u e Hu0 Hu HE p' p g H N. rewrite <- (xz_pos p) in H. apply kerr_cov_inv in H. destruct H as ((S & V & D1 & D2) & ->).
  exact (cov_track F u K e Hu0 Hu HE c G Cc o (fun j => kerr_parA (e j) c G Cc o) _ _ (kerr_par_ok F u K e Hu0 Hu HE c G Cc o Hc V) (kerr_class c G o Hc) S _ _ _ (zpos_track F u Hu0 p' p N) D1 D2).
Qed.
Lemma kn_cov_follows K c G Cc o : c <> 0 -> cov_follows K (fun e => kn_covA e c G Cc o) (MetricModel.kn_cov c G Cc o).
Proof.
  intros Hc J F FF u e Hu0 Hu HE p' p g H N. rewrite <- (xz_pos p) in H. apply kn_cov_inv in H. destruct H as ((S & V & D1 & D2) & ->).
  exact (cov_track F u K e Hu0 Hu HE c G Cc o (fun j => kn_parA (e j) c G Cc o) _ _ (kn_par_ok F u K e Hu0 Hu HE c G Cc o Hc V) (kn_class c G o Hc) S _ _ _ (zpos_track F u Hu0 p' p N) D1 D2).
Qed.

Lemma disc_pos c g v : symmetric4 g -> 0 < mnth g 0 0 -> norm2 g (four_vel 0 v) < c ^ 2 -> 0 < disc c g v.
Proof.
  intros S HA HN. unfold four_vel in HN. rewrite (norm2_quadratic c) in HN by exact S. unfold disc. assert (E : fst (fst (v0_coeffs c g (c1 v) (c2 v) (c3 v))) = mnth g 0 0) by reflexivity.
  destruct (v0_coeffs c g (c1 v) (c2 v) (c3 v)) as [[A B] C]. cbn [fst] in E. subst A. set (A := mnth g 0 0) in *. assert (C < 0) by lra. assert (0 <= B ^ 2) by apply pow2_ge_0. nra.
Qed.
Lemma q4_track {J} (F : (J -> Prop) -> Prop) u (x' : J -> V4) x : nr F u (fun j => c0 (x' j)) (fun _ => c0 x) (c0 x) -> nr F u (fun j => c1 (x' j)) (fun _ => c1 x) (c1 x) -> nr F u (fun j => c2 (x' j)) (fun _ => c2 x) (c2 x) -> nr F u (fun j => c3 (x' j)) (fun _ => c3 x) (c3 x) ->
  forall i, (i < 4)%nat -> nr F u (fun j => q4nth (x' j) i) (fun _ => q4nth x i) (q4nth x i).
Proof. intros H0 H1 H2 H3 i Hi. do 4 (destruct i as [|i]; [assumption|]). lia. Qed.
Section Main.
Variables (K c : R) (covE : fenv -> V4 -> Res M4) (cov : V4 -> Res M4).
Hypothesis Hf : cov_follows K covE cov.
(** position() and velocity(metric) on floats, for every SI input within Kin u of x, v *)
Lemma four_vel_track {J} (F : (J -> Prop) -> Prop) {FF : Filter F} (u : J -> R) (e : J -> fenv) (x' v' : J -> V4) x v g w :
  F (fun j => 0 <= u j) -> filterlim u F (locally 0) -> F (fun j => good K (u j) (e j)) ->
  cov (si_position c x) = Ok g -> v0 c g (c1 v) (c2 v) (c3 v) = Ok w -> 0 < disc c g v ->
  (forall i, (i < 4)%nat -> nr F u (fun j => q4nth (x' j) i) (fun _ => q4nth x i) (q4nth x i)) -> (forall i, (i < 4)%nat -> nr F u (fun j => q4nth (v' j) i) (fun _ => q4nth v i) (q4nth v i)) ->
  okT F (fun j => four_velA (e j) c (covE (e j)) (x' j) (v' j)) (fun z => (forall i, (i < 4)%nat -> nr F u (fun j => q4nth (fst (z j)) i) (fun _ => q4nth (si_position c x) i) (q4nth (si_position c x) i)) /\
    forall i, (i < 4)%nat -> nr F u (fun j => q4nth (snd (z j)) i) (fun _ => q4nth (four_vel w v) i) (q4nth (four_vel w v) i)).
Proof.
  intros Hu0 Hu HE Eg Ew Hd Hx Hv. unfold four_velA.
  assert (HA := HAA F u K e HE).
  apply (okT_bind F _ _ _ _ (okto_num F u (AA e) Hu0 Hu HA c)). intros vc Nc.
  apply (okT_bind F _ _ _ _ (okto_mul F u (AA e) Hu0 Hu HA _ _ _ _ _ _ Nc (Hx 0%nat ltac:(lia)))). intros x0 N0.
  assert (Np : forall i, (i < 4)%nat -> nr F u (fun j => q4nth (mkQ4 (x0 j) (c1 (x' j)) (c2 (x' j)) (c3 (x' j))) i) (fun _ => q4nth (si_position c x) i) (q4nth (si_position c x) i)).
  { apply (q4_track F u (fun j => mkQ4 (x0 j) (c1 (x' j)) (c2 (x' j)) (c3 (x' j)))); cbn [c0 c1 c2 c3 si_position]; [exact N0|exact (Hx 1%nat ltac:(lia))|exact (Hx 2%nat ltac:(lia))|exact (Hx 3%nat ltac:(lia))]. }
  apply (okT_bind F _ _ _ _ (Hf J F FF u e Hu0 Hu HE _ _ g Eg Np)). intros gg Ng.
  apply (okT_bind F _ _ _ _ (v0_track F u K e Hu0 Hu HE c gg g v' v w Ew Hd Ng Hv)). intros vt Nt.
  apply (okT_ok F). cbn [fst snd]. split; [exact Np|].
  apply (q4_track F u (fun j => mkQ4 (vt j) (c1 (v' j)) (c2 (v' j)) (c3 (v' j)))); cbn [c0 c1 c2 c3 four_vel]; [exact Nt|exact (Hv 1%nat ltac:(lia))|exact (Hv 2%nat ltac:(lia))|exact (Hv 3%nat ltac:(lia))].
Qed.
Theorem velocity_rounded Kin x v g : 0 <= Kin -> cov (si_position c x) = Ok g -> symmetric4 g -> 0 < mnth g 0 0 -> norm2 g (four_vel 0 v) < c ^ 2 ->
  exists w, v0 c g (c1 v) (c2 v) (c3 v) = Ok w /\ 0 < w /\ norm2 g (four_vel w v) = c ^ 2 /\
  rounded8 K Kin x v (fun d e x' v' => exists p q, four_velA e c (covE e) x' v' = Ok (p, q) /\ near4 d p (si_position c x) /\ near4 d q (four_vel w v)).
Proof.
  intros HKin Eg Sg H0 Hn. destruct (v0_future c g (c1 v) (c2 v) (c3 v) Sg H0 Hn) as (w & Ew & Pw). exists w. split; [exact Ew|]. split; [exact Pw|]. split; [apply (v0_normalised c g _ _ _ w Sg Ew)|].
  assert (IN : forall i, (i < 4)%nat -> nr (FI K Kin x v) t_u (fun j => q4nth (t_x j) i) (fun _ => q4nth x i) (q4nth x i)).
  { intros i Hi. split; [apply filterlim_const|]. exists Kin. split; [exact HKin|]. exists 1. split; [lra|]. intros j (_ & _ & B & _). apply B, Hi. }
  assert (IV : forall i, (i < 4)%nat -> nr (FI K Kin x v) t_u (fun j => q4nth (t_v j) i) (fun _ => q4nth v i) (q4nth v i)).
  { intros i Hi. split; [apply filterlim_const|]. exists Kin. split; [exact HKin|]. exists 1. split; [lra|]. intros j (_ & _ & _ & B). apply B, Hi. }
  destruct (four_vel_track (FI K Kin x v) t_u t_e t_x t_v x v g w (FI_u0 K Kin x v) (FI_u K Kin x v) (FI_E K Kin x v) Eg Ew (disc_pos c g v Sg H0 Hn) IN IV) as (z & E & N1 & N2).
  destruct (finite_bound K Kin x v 8 (fun i j => if Nat.ltb i 4 then q4nth (fst (z j)) i - q4nth (si_position c x) i else q4nth (snd (z j)) (i - 4) - q4nth (four_vel w v) (i - 4))) as (C & P & X).
  { intros i Hi. destruct (Nat.ltb_spec i 4) as [L|L]; [destruct (N1 i L) as [_ (C & HC & B)]|destruct (N2 (i - 4)%nat ltac:(lia)) as [_ (C & HC & B)]]; exists C; split; assumption. }
  apply use8. exists C. split; [exact P|]. unfold evok in E. generalize (filter_and _ _ E X). apply filter_imp. intros j [E1 B]. exists (fst (z j)), (snd (z j)). rewrite E1. split; [destruct (z j); reflexivity|].
  split; intros i Hi; [assert (Q := B i ltac:(lia))|assert (Q := B (4 + i)%nat ltac:(lia))].
  - destruct (Nat.ltb_spec i 4); [exact Q|lia].
  - destruct (Nat.ltb_spec (4 + i) 4); [lia|]. replace (4 + i - 4)%nat with i in Q by lia. exact Q.
Qed.
End Main.
