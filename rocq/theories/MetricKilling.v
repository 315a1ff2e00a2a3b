(** Constants of motion of f_vec: the covariant components g_0j v^j (energy) and g_3j v^j (angular momentum) of the velocity. *)
From Coq Require Import Reals List ZArith Lra Lia Bool.
From Coquelicot Require Import Coquelicot.
From Verif Require Import Base Calc GeoUtilsModel GeoUtilsProofs CoordModel CoordProofs2 ConvModel ConvProofs MetricModel MetricSpec MetricProofs MetricProofs2 MetricProofs3 MetricProofs4 MetricProofs5.
Import ListNotations.
Open Scope R_scope.

(** g_mu j (p s) w^j (s): the lowered component mu of the velocity *)
Definition lowered (cov : V4 -> Res M4) (p w : R -> V4) (mu : nat) (s : R) : R :=
  sum4 (fun j => entry (cov (p s)) mu j * q4nth (w s) j).
(** the metric does not depend on coordinate mu *)
Definition cyclic (cov : V4 -> Res M4) (mu : nat) : Prop := forall x s, cov (upd x mu s) = cov x.
Lemma cyclic_grad cov mu x dg i j : cyclic cov mu -> is_gradient cov x dg -> (mu < 4)%nat -> (i < 4)%nat -> (j < 4)%nat -> dg mu i j = 0.
Proof.
  intros C H Hm Hi Hj. apply gradient_partials in H. specialize (H mu i j Hm Hi Hj).
  apply (D_unique (fun s => entry (cov (upd x mu s)) i j) (q4nth x mu)); [exact H|]. apply D_ext with (f := fun _ => entry (cov x) i j); [|apply D_const].
  intros s. rewrite C. reflexivity.
Qed.
Lemma lowered_deriv cov p w t g dg a mu : cov (p t) = Ok g -> is_gradient cov (p t) dg -> (mu < 4)%nat ->
  has_velocity p t (w t) -> has_velocity w t a ->
  is_derive (lowered cov p w mu) t (sum4 (fun j => sum4 (fun k => dg k mu j * q4nth (w t) k) * q4nth (w t) j + mnth g mu j * q4nth a j)).
Proof.
  intros Hg Hd Hm Hp Hw. unfold lowered. destruct (Hd p t (w t) eq_refl Hp) as [_ De].
  apply (D_sum4 (fun j s => entry (cov (p s)) mu j * q4nth (w s) j)). intros j Hj.
  eapply D_eq.
  - apply (D_mult (fun s => entry (cov (p s)) mu j) (fun s => q4nth (w s) j)); [apply De; assumption|apply Hw; exact Hj].
  - cbv beta. rewrite Hg. unfold entry. ring.
Qed.
Lemma lowered_geodesic g gi dg dg' v mu : is_inverse g gi -> (mu < 4)%nat ->
  sum4 (fun j => sum4 (fun k => dg k mu j * q4nth v k) * q4nth v j + mnth g mu j * q4nth (geodesic_accel (levi_civita gi dg') v) j)
  = sum4 (fun k => sum4 (fun j => (dg k mu j - dg' k mu j) * q4nth v k * q4nth v j)) + / 2 * sum4 (fun k => sum4 (fun l => dg' mu k l * q4nth v k * q4nth v l)).
Proof.
  intros HI Hm. set (a := geodesic_accel (levi_civita gi dg') v).
  assert (A : forall j, (j < 4)%nat -> q4nth a j = - sum4 (fun k => sum4 (fun l => levi_civita gi dg' j k l * q4nth v k * q4nth v l))).
  { intros j Hj. unfold a, geodesic_accel. idx4 j Hj; reflexivity. }
  assert (L : sum4 (fun j => mnth g mu j * q4nth a j)
     = - sum4 (fun k => sum4 (fun l => / 2 * (dg' l mu k + dg' k mu l - dg' mu k l) * q4nth v k * q4nth v l))).
  { transitivity (- sum4 (fun k => sum4 (fun l => sum4 (fun j => mnth g mu j * levi_civita gi dg' j k l) * q4nth v k * q4nth v l))).
    - unfold sum4 at 1. rewrite !A by lia. generalize (levi_civita gi dg'); intros ch. unfold sum4. ring.
    - f_equal. apply sum4_ext; intros k Hk. apply sum4_ext; intros l Hl. rewrite lower_connection by assumption. reflexivity. }
  transitivity (sum4 (fun j => sum4 (fun k => dg k mu j * q4nth v k) * q4nth v j) + sum4 (fun j => mnth g mu j * q4nth a j)).
  - unfold sum4. ring.
  - rewrite L. clear. unfold sum4. field.
Qed.
(** along a geodesic of the connection of a metric that does not depend on coordinate mu *)
Lemma lowered_connection cov p w t ch mu : cyclic cov mu -> (mu < 4)%nat -> is_connection cov (p t) ch ->
  has_velocity p t (w t) -> has_velocity w t (geodesic_accel ch (w t)) -> is_derive (lowered cov p w mu) t 0.
Proof.
  intros C Hm [g [gi [dg [Hg [Hi [Hd He]]]]]] Hp Hw.
  eapply D_eq; [apply (lowered_deriv cov p w t g dg _ mu Hg Hd Hm Hp Hw)|].
  rewrite (accel_ext ch (levi_civita gi dg) (w t) He). rewrite lowered_geodesic by assumption.
  assert (Z : forall k l, (k < 4)%nat -> (l < 4)%nat -> dg mu k l = 0) by (intros; eapply cyclic_grad; eassumption).
  unfold sum4 at 3 4. rewrite !Z by lia. unfold sum4. ring.
Qed.

Lemma upd_r x mu s : (mu = 0 \/ mu = 3)%nat -> c1 (upd x mu s) = c1 x /\ c2 (upd x mu s) = c2 x.
Proof. intros [-> | ->]; destruct x; split; reflexivity. Qed.
Lemma sch_cyclic c G o mu : (mu = 0 \/ mu = 3)%nat -> cyclic (sch_cov c G o) mu.
Proof. intros H x s. destruct (upd_r x mu s H) as [E1 E2]. unfold sch_cov. rewrite E1, E2. reflexivity. Qed.
Lemma kerr_cyclic c G Cc o mu : (mu = 0 \/ mu = 3)%nat -> cyclic (kerr_cov c G Cc o) mu.
Proof. intros H x s. destruct (upd_r x mu s H) as [E1 E2]. unfold kerr_cov, bl_params. rewrite E1, E2. reflexivity. Qed.
Lemma kn_cyclic c G Cc o mu : (mu = 0 \/ mu = 3)%nat -> cyclic (kn_cov c G Cc o) mu.
Proof. intros H x s. destruct (upd_r x mu s H) as [E1 E2]. unfold kn_cov, kn_params. rewrite E1, E2. reflexivity. Qed.

Lemma sch_lowered_constant c G o p w a b mu : c <> 0 -> (mu = 0 \/ mu = 3)%nat -> a <= b ->
  (forall t, a <= t <= b -> exists acc, has_velocity p t (w t) /\ sch_f_vec c G o (p t) (w t) = Ok (w t, acc) /\ has_velocity w t acc) ->
  lowered (sch_cov c G o) p w mu a = lowered (sch_cov c G o) p w mu b.
Proof.
  intros Hc Hm Hab H. apply constant_of_derive; [exact Hab|]. intros t Ht. destruct (H t Ht) as [acc [H1 [H2 H3]]].
  apply sch_f_vec_spec in H2. destruct H2 as [_ [ch [Hch ->]]].
  apply (lowered_connection _ p w t ch mu); [apply sch_cyclic; exact Hm|lia|apply sch_connection; assumption|exact H1|exact H3].
Qed.
Lemma kn_lowered_constant c G Cc o p w a b mu : q_val (mo_q o) = 0 -> (mu = 0 \/ mu = 3)%nat -> a <= b ->
  (forall t, a <= t <= b -> exists acc, has_velocity p t (w t) /\ kn_f_vec c G Cc o (p t) (w t) = Ok (w t, acc) /\ has_velocity w t acc) ->
  lowered (kn_cov c G Cc o) p w mu a = lowered (kn_cov c G Cc o) p w mu b.
Proof.
  intros Hq Hm Hab H. apply constant_of_derive; [exact Hab|]. intros t Ht. destruct (H t Ht) as [acc [H1 [H2 H3]]].
  apply kn_f_vec_uncharged in H2; [|exact Hq]. destruct H2 as [_ [ch [Hch ->]]].
  apply (lowered_connection _ p w t ch mu); [apply kn_cyclic; exact Hm|lia|eapply kn_connection; eassumption|exact H1|exact H3].
Qed.
(** Kerr: only the angular momentum feels the wrong derivative entry *)
Lemma kerr_lowered_drift c G Cc o p w t v' a mu : (mu = 0 \/ mu = 3)%nat ->
  has_velocity p t (w t) -> kerr_f_vec c G Cc o (p t) (w t) = Ok (v', a) -> has_velocity w t a ->
  let al := al_of c G o in let r := c1 (p t) in let th := c2 (p t) in let sg := sg_of al r th in
  is_derive (lowered (kerr_cov c G Cc o) p w mu) t
    (if Nat.eqb mu 3 then - (2 * (al * sin th) ^ 2 * (sch_rad c G o * (sg - 2 * r ^ 2) / sg ^ 2) * sin th ^ 2) * c1 (w t) * c3 (w t) else 0).
Proof.
  intros Hm Hp H Hw. cbv zeta. apply kerr_f_vec_spec in H. destruct H as [-> [ch [Hch ->]]].
  destruct (kerr_christoffels_eq _ _ _ _ _ _ Hch) as [g [gc [dg [Hg [Hi [Hdg [He Hs]]]]]]].
  assert (D := kerr_cov_dom _ _ _ _ _ _ Hg).
  destruct (kerr_dgdx_exact c G Cc o (p t) dg (proj1 D) Hdg) as [dg' [Gd [Same Dif]]].
  eapply D_eq; [apply (lowered_deriv _ p w t g dg' _ mu Hg Gd ltac:(lia) Hp Hw)|].
  rewrite (accel_ext ch (levi_civita gc dg) (w t) He). rewrite lowered_geodesic by (assumption || lia).
  rewrite <- Dif.
  assert (Z : forall k i j, (k, i, j) <> (1, 3, 3)%nat -> dg' k i j - dg k i j = 0) by (intros; rewrite Same by assumption; ring).
  assert (Y : forall k l, (k < 4)%nat -> (l < 4)%nat -> dg mu k l = 0).
  { intros k l Hk Hl. rewrite Same by (destruct Hm; congruence). eapply cyclic_grad; [apply kerr_cyclic; exact Hm|exact Gd|lia|assumption|assumption]. }
  unfold sum4. rewrite !Y by lia.
  destruct Hm as [-> | ->]; repeat match goal with |- context [dg' ?k ?i ?j - dg ?k ?i ?j] => rewrite (Z k i j) by discriminate end; cbn [q4nth Nat.eqb]; ring.
Qed.
Lemma kerr_energy_constant c G Cc o p w a b : a <= b ->
  (forall t, a <= t <= b -> exists acc, has_velocity p t (w t) /\ kerr_f_vec c G Cc o (p t) (w t) = Ok (w t, acc) /\ has_velocity w t acc) ->
  lowered (kerr_cov c G Cc o) p w 0 a = lowered (kerr_cov c G Cc o) p w 0 b.
Proof.
  intros Hab H. apply constant_of_derive; [exact Hab|]. intros t Ht. destruct (H t Ht) as [acc [H1 [H2 H3]]].
  exact (kerr_lowered_drift c G Cc o p w t (w t) acc 0 (or_introl eq_refl) H1 H2 H3).
Qed.
(** a = 1, r = 3 gravitational radii, theta = pi/2 *)
Lemma kerr_momentum_refuted c G Cc : 0 < c -> 0 < G ->
  exists o p w a d, mo_sys o = BL /\ valid_spin o /\ has_velocity p 0 (w 0)
    /\ kerr_f_vec c G Cc o (p 0) (w 0) = Ok (w 0, a) /\ has_velocity w 0 a
    /\ is_derive (lowered (kerr_cov c G Cc o) p w 3) 0 d /\ d <> 0.
Proof.
  intros Hc HG. set (o := wit c G NKerr 1 0 0). set (x := mkQ4 0 3 (PI / 2) 0). set (v := mkQ4 1 1 0 1).
  assert (Hrs : sch_rad c G o = 2) by (apply wit_rs; assumption).
  assert (Hal : al_of c G o = 1) by (apply wit_al; assumption).
  assert (Hsg : sg_of (al_of c G o) (c1 x) (c2 x) = 9).
  { rewrite Hal. unfold sg_of, x. cbn [c1 c2]. rewrite cos_PI2. ring. }
  assert (Hdl : dl_of (sch_rad c G o) (al_of c G o) (c1 x) = 4).
  { rewrite Hal, Hrs. unfold dl_of, x. cbn [c1]. ring. }
  assert (Hv : valid_spin o) by (unfold valid_spin, o, wit; cbn [mo_a q_val]; lra).
  assert (D : bl_dom c G o x) by (repeat split; try apply Hv; rewrite ?Hsg, ?Hdl; lra).
  assert (exists a, kerr_f_vec c G Cc o x v = Ok (v, a)) as [a Ha].
  { destruct (proj2 (kn_contra_defined c G Cc o x ltac:(lra))) as [gi Hgi].
    { split; [exact D|]. unfold x; cbn [c2]. rewrite sin_PI2. lra. }
    unfold kerr_f_vec, kerr_christoffels. change (mo_sys o) with BL. cbv iota.
    unfold metric_contravariant in *. rewrite kerr_cov_is_kn, Hgi. cbn [bindR].
    unfold kerr_dgdx. rewrite bl_params_eq by exact Hv. cbn [bindR]. rewrite finite_if_ok by (rewrite Hsg, Hdl; repeat constructor; lra).
    cbn [bindR]. eauto. }
  exists o, (fun s => vadd x (vscal s v)), (fun s => vadd v (vscal s a)), a. eexists.
  rewrite !vadd_0. split; [reflexivity|]. split; [exact Hv|]. split; [apply D_lin_path|]. split; [exact Ha|]. split; [apply D_lin_path|].
  assert (K := kerr_lowered_drift c G Cc o (fun s => vadd x (vscal s v)) (fun s => vadd v (vscal s a)) 0 v a 3 (or_intror eq_refl)).
  cbv beta zeta in K. rewrite !vadd_0 in K. split; [apply K; [apply D_lin_path|exact Ha|apply D_lin_path]|].
  rewrite Hsg, Hal, Hrs. unfold x, v; cbn [c1 c2 c3 Nat.eqb]. rewrite sin_PI2. lra.
Qed.
