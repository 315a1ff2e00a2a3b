(** Invariant submanifolds: orbits that start in the equatorial plane stay in it; radial orbits stay radial. *)
From Coq Require Import String Reals List ZArith Lra Lia Bool.
From Verif Require Import Base DualModel DualSpec Calc GeoUtilsModel GeoUtilsProofs FantasyModel FantasyProofs FantasyProofs2 FantasyProofs3 GeodesicModel GeodesicProofs FantasySymm FantasySymm2 FantasySymm3 FantasySymm4 FantasySymm5.
Import ListNotations.
Open Scope R_scope.

(** a row lies in the equatorial plane: theta = pi/2 (or z = 0 in Cartesian output) and no polar momentum *)
Definition in_equator (cart : bool) (r : row) : Prop := (if cart then c3 (fst r) = 0 else c2 (fst r) = PI / 2) /\ c2 (snd r) = 0.

Lemma map_fixed {X} (f : X -> X) l : map f l = l -> forall x, In x l -> f x = x.
Proof.
  induction l as [|a l IH]; intros E x H; [contradiction|]. injection E as E1 E2. destruct H as [H|H]; [subst; exact E1|apply IH; assumption].
Qed.
Lemma fixed_row cart r : (mirror_point cart (fst r), mirror_momentum (snd r)) = r -> in_equator cart r.
Proof.
  destruct r as [q p]. intros E. injection E as E1 E2. cbn [fst snd] in *. split; cbn [fst snd].
  - destruct cart; unfold mirror_point in E1; [apply (f_equal c3) in E1|apply (f_equal c2) in E1]; cbn [c0 c1 c2 c3] in E1; lra.
  - apply (f_equal c2) in E2. cbn in E2. lra.
Qed.
Theorem equator_any m prms x1 x3 u1 u3 tl cart kw o : every_metric m mirror_program ->
  mk_geodesic m prms (x1, PI / 2, x3) (u1, 0, u3) tl cart kw = Ok o ->
  geo_position o = mkQ4 0 x1 (PI / 2) x3 /\ c2 (geo_momentum o) = 0 /\ forall r, In r (snd (geo_trajectory o)) -> in_equator cart r.
Proof.
  intros H E. assert (F := geodesic_mirror m prms x1 (PI / 2) x3 u1 0 u3 tl cart kw H).
  replace (PI - PI / 2) with (PI / 2) in F by lra. replace (- 0) with 0 in F by lra. rewrite E in F. cbn [mapR] in F. apply Ok_inj in F.
  destruct o as [P M T]. unfold map_geo in F. cbn [geo_position geo_momentum geo_trajectory] in *. injection F as F1 F2 F3.
  split; [|split].
  - unfold mk_geodesic in E. destruct (resolve_metric m); cbn [bindR] in E; [|discriminate]. destruct (a prms) ; cbn [bindR] in E; [|discriminate].
    destruct (P4 _ _ _ _ _ _); cbn [bindR] in E; [|discriminate]. destruct (a _); cbn [bindR] in E; [|discriminate]. destruct (calculate_trajectory _ _ _ _ _ _); cbn [bindR] in E; [|discriminate].
    apply Ok_inj in E. injection E as E1 E2 E3. subst. reflexivity.
  - apply (f_equal c2) in F2. unfold mirror_momentum in F2. cbn in F2. lra.
  - destruct T as [st rows]. cbn [fst snd] in *. injection F3 as F4. intros r Hr. apply fixed_row. exact (map_fixed _ _ (eq_sym F4) r Hr).
Qed.
Theorem equator_named s prms x1 x3 u1 u3 tl cart kw o : In s ["Schwarzschild"; "Kerr"; "KerrNewman"]%string ->
  mk_geodesic (MName s) prms (x1, PI / 2, x3) (u1, 0, u3) tl cart kw = Ok o ->
  geo_position o = mkQ4 0 x1 (PI / 2) x3 /\ c2 (geo_momentum o) = 0 /\ forall r, In r (snd (geo_trajectory o)) -> in_equator cart r.
Proof. intros H. apply equator_any. apply named_symmetries. exists s. split; [reflexivity|exact H]. Qed.

(** ** properties of the doubled state that every sub-flow keeps hold in every row *)
Section Invariant.
Variables (G : metricfun) (Inv : state -> Prop).
Hypothesis HA : forall d s s', Inv s -> apply_A G d s = Ok s' -> Inv s'.
Hypothesis HB : forall d s s', Inv s -> apply_B G d s = Ok s' -> Inv s'.
Hypothesis HM : forall d w s, Inv s -> Inv (flow_mixed s d w).
Lemma ord_2_inv w d s s' : Inv s -> ord_2 G w d s = Ok s' -> Inv s'.
Proof.
  intros I H. unfold ord_2 in H. apply bindR_Ok in H. destruct H as (a & Ha & H). apply bindR_Ok in H. destruct H as (b & Hb & H). apply bindR_Ok in H. destruct H as (c & Hc & H).
  eapply HA; [|exact H]. eapply HB; [|exact Hc]. apply HM. eapply HB; [|exact Hb]. eapply HA; [|exact Ha]. exact I.
Qed.
Lemma integrator_inv order w f d s s' : Inv s -> integrator_of order G w = Ok f -> f d s = Ok s' -> Inv s'.
Proof.
  intros I Hf H. rewrite (order_is_weights _ _ _ _ Hf) in H. revert s I H. induction (weights order) as [|z ws IH]; intros s I H; cbn [run_substeps] in H.
  - apply Ok_inj in H. subst. exact I.
  - apply bindR_Ok in H. destruct H as (s1 & H1 & H). eapply IH; [|exact H]. eapply ord_2_inv; [exact I|exact H1].
Qed.
End Invariant.
Lemma rows_inv g (Inv : state -> Prop) q0 p0 tl cart kw t :
  (forall d s s', Inv s -> apply_A (metricfun_of g) d s = Ok s' -> Inv s') -> (forall d s s', Inv s -> apply_B (metricfun_of g) d s = Ok s' -> Inv s') ->
  (forall d w s, Inv s -> Inv (flow_mixed s d w)) -> Inv (mkQ4 q0 p0 q0 p0) -> calculate_trajectory g q0 p0 tl cart kw = Ok t ->
  forall r, In r (snd t) -> exists s, Inv s /\ r = present cart s.
Proof.
  intros HA HB HM I H. destruct t as [st rows]. destruct (trajectory_spec _ _ _ _ _ _ _ _ H) as (_ & _ & _ & l & C & ->). cbn [snd]. clear H.
  intros r Hr. apply in_map_iff in Hr. destruct Hr as (s & <- & Hs). exists s. split; [|reflexivity].
  revert C I Hs. generalize (mkQ4 q0 p0 q0 p0) as s0. intros s0 C. induction C as [s0|s0 s1 l E C IH]; intros I Hs; [contradiction|].
  assert (I1 : Inv s1). { unfold one_step in E. apply bindR_Ok in E. destruct E as (f & Hf & E). exact (integrator_inv _ _ HA HB HM _ _ _ _ _ _ I Hf E). }
  destruct Hs as [<- |Hs]; [exact I1|]. apply IH; assumption.
Qed.

(** ** radial orbits *)
(** the metric does not couple (t, r) with the angles, and its (t, r) block does not depend on them *)
Definition radial_block (g : metricP) : Prop :=
  (forall i j, (i < 2)%nat -> (2 <= j < 4)%nat -> mnth g i j = EConst 0 /\ mnth g j i = EConst 0)
  /\ (forall i j k, (i < 2)%nat -> (j < 2)%nat -> (2 <= k < 4)%nat -> mentions k (mnth g i j) = false).
Definition on_ray (th ph : R) (s : state) : Prop :=
  c2 (q1 s) = th /\ c3 (q1 s) = ph /\ c2 (q2 s) = th /\ c3 (q2 s) = ph /\ c2 (p1 s) = 0 /\ c3 (p1 s) = 0 /\ c2 (p2 s) = 0 /\ c3 (p2 s) = 0.
Lemma mixed_ray th ph d w s : on_ray th ph s -> on_ray th ph (flow_mixed s d w).
Proof.
  unfold on_ray, flow_mixed, q1, p1, q2, p2. cbv zeta. destruct s as [a b c e]. cbn [c0 c1 c2 c3]. intros (H1 & H2 & H3 & H4 & H5 & H6 & H7 & H8).
  unfold vadd, vsub, vscal, q4map2, q4map; cbn [c0 c1 c2 c3]. rewrite H1, H2, H3, H4, H5, H6, H7, H8. repeat split; lra.
Qed.
Lemma block_jac g q k J : radial_block g -> (2 <= k < 4)%nat -> gjac (metricfun_of g) q k = Ok J -> forall i j, (i < 2)%nat -> (j < 2)%nat -> mnth J i j = 0.
Proof.
  intros [_ B] Hk H i j Hi Hj. cbn in H. destruct (jacobian_entries _ _ _ _ H i j ltac:(lia) ltac:(lia)) as (m & Hm & ->). rewrite Nat2Z.id in Hm.
  apply (run_no_deriv k (mnth g (Nat.min i j) (Nat.max i j)) (dual_coords q k)).
  - intros a Ha. unfold dual_coords; simpl. rewrite (proj2 (Nat.eqb_neq a k) Ha). reflexivity.
  - apply B; lia.
  - apply run_metric_entries; [assumption|lia|lia].
Qed.
Lemma block_val g q M : radial_block g -> metric_at g q = Ok M -> forall i j, (i < 2)%nat -> (2 <= j < 4)%nat -> mnth M j i = 0.
Proof. intros [B _] H i j Hi Hj. eapply metric_at_entry; [exact H|lia|lia|]. apply (B i j Hi Hj). Qed.
Lemma block_grad g q p h : radial_block g -> c2 p = 0 -> c3 p = 0 -> ham_grad (metricfun_of g) q p = Ok h -> c2 h = 0 /\ c3 h = 0.
Proof.
  intros B P2 P3 H.
  assert (E : forall k, (2 <= k < 4)%nat -> q4nth h k = 0).
  { intros k Hk. unfold ham_grad in H. assert (E := q4seq_Ok _ _ H k ltac:(lia)). rewrite q4nth_tab in E by lia. unfold part_ham_flow in E.
    destruct (gjac (metricfun_of g) q k) as [J|] eqn:EJ; cbn [bindR mapR] in E; [|discriminate]. apply Ok_inj in E. rewrite <- E.
    assert (Z := block_jac g q k J B Hk EJ). assert (Z00 := Z 0%nat 0%nat ltac:(lia) ltac:(lia)). assert (Z01 := Z 0%nat 1%nat ltac:(lia) ltac:(lia)).
    assert (Z10 := Z 1%nat 0%nat ltac:(lia) ltac:(lia)). assert (Z11 := Z 1%nat 1%nat ltac:(lia) ltac:(lia)). unfold mnth in *. cbn [q4nth] in *.
    unfold mv, q4map, dot; cbn [c0 c1 c2 c3]. rewrite P2, P3, Z00, Z01, Z10, Z11. ring. }
  split; [apply (E 2%nat)|apply (E 3%nat)]; lia.
Qed.
Lemma block_vel g q p M : radial_block g -> c2 p = 0 -> c3 p = 0 -> metric_at g q = Ok M -> c2 (mv M p) = 0 /\ c3 (mv M p) = 0.
Proof.
  intros B P2 P3 H. assert (Z := block_val g q M B H). assert (Z20 := Z 0%nat 2%nat ltac:(lia) ltac:(lia)). assert (Z21 := Z 1%nat 2%nat ltac:(lia) ltac:(lia)).
  assert (Z30 := Z 0%nat 3%nat ltac:(lia) ltac:(lia)). assert (Z31 := Z 1%nat 3%nat ltac:(lia) ltac:(lia)). unfold mnth in *. cbn [q4nth] in *.
  unfold mv, q4map, dot; cbn [c0 c1 c2 c3]. rewrite P2, P3, Z20, Z21, Z30, Z31. split; ring.
Qed.
Ltac ray_flow H := unfold apply_A, flow_A, apply_B, flow_B in H; apply bindR_Ok in H; destruct H as (qp & H & E); apply Ok_inj in E; subst; apply bindR_Ok in H; destruct H as (h & Hh & H);
  apply bindR_Ok in H; destruct H as (M & HM & H); apply Ok_inj in H; subst qp.
Lemma ray_A g th ph d s s' : radial_block g -> on_ray th ph s -> apply_A (metricfun_of g) d s = Ok s' -> on_ray th ph s'.
Proof.
  intros B (H1 & H2 & H3 & H4 & H5 & H6 & H7 & H8) H. ray_flow H.
  destruct (block_grad _ _ _ _ B H7 H8 Hh) as [G2 G3]. destruct (block_vel _ _ _ _ B H7 H8 HM) as [V2 V3].
  unfold on_ray. unfold q1, p1, q2, p2 in *. cbn [c0 c1 c2 c3 fst snd]. repeat (split; [solve [assumption|unfold vadd, vsub, vscal, q4map2; cbn [c0 c1 c2 c3] in *; unfold q4map; cbn [c0 c1 c2 c3]; rewrite ?V2, ?V3, ?G2, ?G3; lra]|]).
  assumption.
Qed.
Lemma ray_B g th ph d s s' : radial_block g -> on_ray th ph s -> apply_B (metricfun_of g) d s = Ok s' -> on_ray th ph s'.
Proof.
  intros B (H1 & H2 & H3 & H4 & H5 & H6 & H7 & H8) H. ray_flow H.
  destruct (block_grad _ _ _ _ B H5 H6 Hh) as [G2 G3]. destruct (block_vel _ _ _ _ B H5 H6 HM) as [V2 V3].
  unfold on_ray. unfold q1, p1, q2, p2 in *. cbn [c0 c1 c2 c3 fst snd]. repeat (split; [solve [assumption|unfold vadd, vsub, vscal, q4map2; cbn [c0 c1 c2 c3] in *; unfold q4map; cbn [c0 c1 c2 c3]; rewrite ?V2, ?V3, ?G2, ?G3; lra]|]).
  unfold vsub, vscal, q4map2; cbn [c0 c1 c2 c3] in *; unfold q4map; cbn [c0 c1 c2 c3]; rewrite ?V2, ?V3, ?G2, ?G3; lra.
Qed.
(** a row on the ray (theta, phi) with no angular momentum; in Cartesian output the position is a multiple of the direction *)
Definition on_radius (cart : bool) (th ph : R) (r : row) : Prop :=
  (if cart then exists rad, c1 (fst r) = rad * (sin th * cos ph) /\ c2 (fst r) = rad * (sin th * sin ph) /\ c3 (fst r) = rad * cos th
   else c2 (fst r) = th /\ c3 (fst r) = ph) /\ c2 (snd r) = 0 /\ c3 (snd r) = 0.
Theorem radial_any g q0 p0 tl cart kw t : radial_block g -> c2 p0 = 0 -> c3 p0 = 0 -> calculate_trajectory g q0 p0 tl cart kw = Ok t ->
  forall r, In r (snd t) -> on_radius cart (c2 q0) (c3 q0) r.
Proof.
  intros B P2 P3 H r Hr.
  destruct (rows_inv g (on_ray (c2 q0) (c3 q0)) q0 p0 tl cart kw t (fun d s s' => ray_A g _ _ d s s' B) (fun d s s' => ray_B g _ _ d s s' B) (fun d w s => mixed_ray _ _ d w s)) with (r := r) as (s & I & ->); auto.
  { unfold on_ray, q1, p1, q2, p2; cbn [c0 c1 c2 c3]. repeat split; assumption. }
  destruct I as (H1 & H2 & _ & _ & H5 & H6 & _). unfold on_radius, present. destruct cart; cbn [fst snd].
  - split; [|split; assumption]. exists (c1 (q1 s)). unfold to_cartesian. cbv zeta. cbn [c0 c1 c2 c3]. rewrite H1, H2. repeat split; ring.
  - repeat split; assumption.
Qed.
Lemma sch_block : radial_block schE.
Proof.
  split; [intros i j Hi Hj|intros i j k Hi Hj Hk].
  - destruct i as [|[|i]]; [| |lia]; (destruct j as [|[|[|[|j]]]]; try lia; split; reflexivity).
  - destruct i as [|[|i]]; [| |lia]; (destruct j as [|[|j]]; [| |lia]); (destruct k as [|[|[|[|k]]]]; try lia; reflexivity).
Qed.
Theorem radial_schwarzschild prms x1 x2 x3 u1 tl cart kw o : mk_geodesic (MName "Schwarzschild") prms (x1, x2, x3) (u1, 0, 0) tl cart kw = Ok o ->
  forall r, In r (snd (geo_trajectory o)) -> on_radius cart x2 x3 r.
Proof.
  intros H. unfold mk_geodesic in H. cbn [resolve_metric String.eqb Ascii.eqb Bool.eqb bindR] in H.
  apply bindR_Ok in H. destruct H as (gP & HgP & H). apply Ok_inj in HgP. subst gP.
  apply bindR_Ok in H. destruct H as (p & Hp & H). apply bindR_Ok in H. destruct H as (gI & HgI & H). apply Ok_inj in HgI. subst gI. apply bindR_Ok in H. destruct H as (t & Ht & H). apply Ok_inj in H. subst o. cbn [geo_trajectory].
  unfold P4 in Hp. apply bindR_Ok in Hp. destruct Hp as (M & _ & Hp). unfold P_of_guu in Hp. cbv zeta in Hp. apply bindR_Ok in Hp. destruct Hp as (a & _ & Hp). apply bindR_Ok in Hp. destruct Hp as (b & _ & Hp).
  apply Ok_inj in Hp. subst p. intros r Hr. exact (radial_any schE (mkQ4 0 x1 x2 x3) (mkQ4 b u1 0 0) tl cart kw t sch_block eq_refl eq_refl Ht r Hr).
Qed.
(** einsteinpy/examples.py:8-35: precession() *)
Definition precession : Res geodesic := mk_timelike (MName "Schwarzschild") [] (40, PI / 2, 0) (0, 0, 383405 / 100000) true (mkkw 5500 1 (1/100) (1/100) 2 1 false).
Theorem precession_planar o : precession = Ok o -> length (snd (geo_trajectory o)) = 5500%nat /\ forall r, In r (snd (geo_trajectory o)) -> c3 (fst r) = 0 /\ c2 (snd r) = 0.
Proof.
  intros H. split.
  - unfold precession, mk_timelike, mk_geodesic in H. apply bindR_Ok in H. destruct H as (call & Rc & H). apply bindR_Ok in H. destruct H as (gP & HgP & H).
    apply bindR_Ok in H. destruct H as (p & Hp & H). apply bindR_Ok in H. destruct H as (gI & HgI & H). apply bindR_Ok in H. destruct H as ([st rows] & Ht & H). apply Ok_inj in H. subst o. cbn [geo_trajectory snd].
    destruct (trajectory_spec _ _ _ _ _ _ _ _ Ht) as (_ & L & _). exact L.
  - intros r Hr. apply (equator_named "Schwarzschild" [] 40 0 0 (383405 / 100000) true true (mkkw 5500 1 (1/100) (1/100) 2 1 false) o); [cbn; tauto|exact H|exact Hr].
Qed.
