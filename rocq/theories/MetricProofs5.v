From Coq Require Import Reals List ZArith Lra Lia Bool.
From Coquelicot Require Import Coquelicot.
From Verif Require Import Base Calc GeoUtilsModel GeoUtilsProofs CoordModel CoordProofs2 ConvModel ConvProofs MetricModel MetricSpec MetricProofs MetricProofs2 MetricProofs3 MetricProofs4.
Import ListNotations.
Open Scope R_scope.

(** witness: G M / c^2 = 1 metre, spin a, charge Q, test charge q *)
Definition wit (c G : R) (n : mname) (a Q q : R) : mobj :=
  mkmobj n BL (mkqty (c ^ 2 / G) 1 DMass) (mkqty a 1 DOne) (mkqty Q 1 DCharge) (mkqty q 1 DOne).
Lemma wit_rs c G n a Q q : 0 < c -> 0 < G -> sch_rad c G (wit c G n a Q q) = 2.
Proof. intros Hc HG. unfold sch_rad, schwarzschild_radius, wit. cbn [prim mo_M q_val]. field. lra. Qed.
Lemma wit_al c G n a Q q : 0 < c -> 0 < G -> al_of c G (wit c G n a Q q) = a.
Proof. intros Hc HG. unfold al_of, wit. cbn [mo_M mo_a q_val]. field. lra. Qed.

(** *** C35 refuted *)
Lemma kerr_dgdx_refuted c G Cc : 0 < c -> 0 < G ->
  exists o x dg, mo_sys o = BL /\ valid_spin o /\ kerr_dgdx c G Cc o x = Ok dg /\ ~ is_partials (kerr_cov c G Cc o) x dg.
Proof.
  intros Hc HG. set (o := wit c G NKerr 1 0 0). set (x := mkQ4 0 3 (PI / 2) 0).
  assert (Hrs : sch_rad c G o = 2) by (apply wit_rs; assumption).
  assert (Hal : al_of c G o = 1) by (apply wit_al; assumption).
  assert (Hsg : sg_of (al_of c G o) (c1 x) (c2 x) = 9).
  { rewrite Hal. unfold sg_of, x. cbn [c1 c2]. rewrite cos_PI2. ring. }
  assert (Hdl : dl_of (sch_rad c G o) (al_of c G o) (c1 x) = 4).
  { rewrite Hal, Hrs. unfold dl_of, x. cbn [c1]. ring. }
  assert (Hv : valid_spin o) by (unfold valid_spin, o, wit; cbn [mo_a q_val]; lra).
  assert (E : exists dg, kerr_dgdx c G Cc o x = Ok dg).
  { unfold kerr_dgdx. rewrite bl_params_eq by exact Hv. cbn [bindR]. eexists. apply finite_if_ok.
    rewrite Hsg, Hdl. repeat constructor; lra. }
  destruct E as [dg E]. exists o, x, dg. split; [reflexivity|]. split; [exact Hv|]. split; [exact E|].
  intros P. destruct (kerr_dgdx_exact c G Cc o x dg eq_refl E) as [dg' [Gd [_ Dif]]].
  apply gradient_partials in Gd.
  assert (EQ := D_unique _ _ _ _ (P 1 3 3 ltac:(lia) ltac:(lia) ltac:(lia))%nat (Gd 1 3 3 ltac:(lia) ltac:(lia) ltac:(lia))%nat).
  rewrite EQ, Hsg, Hal, Hrs in Dif. unfold x in Dif. cbn [c1 c2] in Dif. rewrite sin_PI2 in Dif. lra.
Qed.

(** *** Norm of the velocity along a curve *)
Definition norm_along (cov : V4 -> Res M4) (p w : R -> V4) (s : R) : R :=
  sum4 (fun i => sum4 (fun j => entry (cov (p s)) i j * q4nth (w s) i * q4nth (w s) j)).
Lemma D_sum4 (f : nat -> R -> R) (f' : nat -> R) t : (forall k, (k < 4)%nat -> is_derive (f k) t (f' k)) ->
  is_derive (fun s => sum4 (fun k => f k s)) t (sum4 f').
Proof.
  intros H. unfold sum4. apply (D_plus (fun s => f 0%nat s + f 1%nat s + f 2%nat s) (f 3%nat)); [|apply H; lia].
  apply (D_plus (fun s => f 0%nat s + f 1%nat s) (f 2%nat)); [|apply H; lia].
  apply (D_plus (f 0%nat) (f 1%nat)); apply H; lia.
Qed.
Lemma norm_deriv cov p w t g dg a : cov (p t) = Ok g -> is_gradient cov (p t) dg ->
  has_velocity p t (w t) -> has_velocity w t a ->
  is_derive (norm_along cov p w) t (norm_rate g dg (w t) a).
Proof.
  intros Hg Hd Hp Hw. unfold norm_along, norm_rate. destruct (Hd p t (w t) eq_refl Hp) as [_ De].
  apply (D_sum4 (fun i s => sum4 (fun j => entry (cov (p s)) i j * q4nth (w s) i * q4nth (w s) j))). intros i Hi.
  apply (D_sum4 (fun j s => entry (cov (p s)) i j * q4nth (w s) i * q4nth (w s) j)). intros j Hj.
  eapply D_eq.
  - apply (D_mult (fun s => entry (cov (p s)) i j * q4nth (w s) i) (fun s => q4nth (w s) j)); [|apply Hw; exact Hj].
    apply (D_mult (fun s => entry (cov (p s)) i j) (fun s => q4nth (w s) i)); [apply De; assumption|apply Hw; exact Hi].
  - cbv beta. rewrite Hg. unfold entry. ring.
Qed.
Lemma accel_ext ch ch' v : eq3 ch ch' -> geodesic_accel ch v = geodesic_accel ch' v.
Proof.
  intros H. unfold geodesic_accel, q4tab. f_equal; f_equal; apply sum4_ext; intros k Hk; apply sum4_ext; intros l Hl; rewrite H by lia; reflexivity.
Qed.
Lemma norm_connection cov p w t ch g : cov (p t) = Ok g -> sym4 g -> is_connection cov (p t) ch ->
  has_velocity p t (w t) -> has_velocity w t (geodesic_accel ch (w t)) -> is_derive (norm_along cov p w) t 0.
Proof.
  intros Hg Hs [g' [gi [dg [Hg' [Hi [Hd He]]]]]] Hp Hw. rewrite Hg in Hg'. apply Ok_inj in Hg'. subst g'.
  eapply D_eq; [apply (norm_deriv cov p w t g dg _ Hg Hd Hp Hw)|].
  rewrite (accel_ext ch (levi_civita gi dg) (w t) He). rewrite norm_rate_geodesic by assumption. unfold sum4. ring.
Qed.

(** *** C39: f_vec *)
Lemma sch_accel_full ch v : (forall i k l, (i < 4)%nat -> (k < 4)%nat -> (l < 4)%nat -> ch i k l = ch i l k) ->
  (forall i k l, (i < 4)%nat -> (k < 4)%nat -> (l < 4)%nat ->
     ~ In (i, k, l) [(1,0,0);(1,1,1);(1,2,2);(1,3,3);(0,0,1);(0,1,0);(2,2,1);(2,1,2);(3,3,1);(3,1,3);(2,3,3);(3,3,2);(3,2,3)]%nat -> ch i k l = 0) ->
  sch_accel ch v = geodesic_accel ch v.
Proof.
  intros Hs Hz.
  assert (Z : forall i k l, Nat.ltb i 4 && Nat.ltb k 4 && Nat.ltb l 4 = true ->
     existsb (fun '(a, b, d) => Nat.eqb a i && Nat.eqb b k && Nat.eqb d l)
      [(1,0,0);(1,1,1);(1,2,2);(1,3,3);(0,0,1);(0,1,0);(2,2,1);(2,1,2);(3,3,1);(3,1,3);(2,3,3);(3,3,2);(3,2,3)]%nat = false -> ch i k l = 0).
  { intros i k l H1 H2. rewrite !andb_true_iff, !Nat.ltb_lt in H1. apply Hz; try lia. intros H.
    assert (T := existsb_exists (fun '(a, b, d) => Nat.eqb a i && Nat.eqb b k && Nat.eqb d l)
      [(1,0,0);(1,1,1);(1,2,2);(1,3,3);(0,0,1);(0,1,0);(2,2,1);(2,1,2);(3,3,1);(3,1,3);(2,3,3);(3,3,2);(3,2,3)]%nat).
    assert (T1 : existsb (fun '(a, b, d) => Nat.eqb a i && Nat.eqb b k && Nat.eqb d l)
      [(1,0,0);(1,1,1);(1,2,2);(1,3,3);(0,0,1);(0,1,0);(2,2,1);(2,1,2);(3,3,1);(3,1,3);(2,3,3);(3,3,2);(3,2,3)]%nat = true).
    { apply T. exists (i, k, l). split; [exact H|]. rewrite !Nat.eqb_refl. reflexivity. }
    congruence. }
  assert (S01 := Hs 0%nat 0%nat 1%nat ltac:(lia) ltac:(lia) ltac:(lia)). assert (S21 := Hs 2%nat 2%nat 1%nat ltac:(lia) ltac:(lia) ltac:(lia)).
  assert (S31 := Hs 3%nat 3%nat 1%nat ltac:(lia) ltac:(lia) ltac:(lia)). assert (S32 := Hs 3%nat 3%nat 2%nat ltac:(lia) ltac:(lia) ltac:(lia)).
  clear Hs Hz. destruct v as [t r th p]. unfold sch_accel, geodesic_accel, q4tab, sum4. cbn [c0 c1 c2 c3 q4nth].
  f_equal; repeat match goal with |- context [ch ?a ?b ?d] => rewrite (Z a b d eq_refl eq_refl) end;
  rewrite ?S01, ?S21, ?S31, ?S32; ring.
Qed.
Lemma sch_f_vec_spec c G o x v v' a : sch_f_vec c G o x v = Ok (v', a) ->
  v' = v /\ exists ch, sch_christoffels c G o x = Ok ch /\ a = geodesic_accel ch v.
Proof.
  unfold sch_f_vec. destruct (mo_sys o) eqn:Hs; try discriminate. intros H. apply bindR_Ok in H. destruct H as [ch [Hc H]].
  apply Ok_inj in H. injection H as <- <-. split; [reflexivity|]. exists ch. split; [exact Hc|].
  unfold sch_christoffels in Hc. rewrite Hs in Hc. apply finite_if_inv in Hc. destruct Hc as [-> _].
  apply sch_accel_full.
  - intros i k l Hi Hk Hl. idx4 i Hi; (idx4 k Hk); (idx4 l Hl); reflexivity.
  - intros i k l Hi Hk Hl N. idx4 i Hi; (idx4 k Hk); (idx4 l Hl); try reflexivity; exfalso; apply N; simpl; tauto.
Qed.
Lemma bl_accel_full gc dg v : bl_accel (bl_ch gc dg) v = geodesic_accel (bl_ch gc dg) v.
Proof.
  destruct v as [t r th p]. unfold bl_accel, geodesic_accel, q4tab, sum4.
  cbv [bl_ch slice firstn skipn nonzero_list fold_left set3 set3s zeros3 Nat.eqb andb]; cbn [c0 c1 c2 c3 q4nth]. f_equal; ring.
Qed.
Lemma kerr_f_vec_spec c G Cc o x v v' a : kerr_f_vec c G Cc o x v = Ok (v', a) ->
  v' = v /\ exists ch, kerr_christoffels c G Cc o x = Ok ch /\ a = geodesic_accel ch v.
Proof.
  unfold kerr_f_vec. destruct (mo_sys o) eqn:Hs; try discriminate. intros H. apply bindR_Ok in H. destruct H as [ch [Hc H]].
  apply Ok_inj in H. injection H as <- <-. split; [reflexivity|]. exists ch. split; [exact Hc|].
  unfold kerr_christoffels in Hc. rewrite Hs in Hc. apply bindR_Ok in Hc. destruct Hc as [gc [_ Hc]]. apply bindR_Ok in Hc.
  destruct Hc as [dg [_ Hc]]. apply Ok_inj in Hc. subst ch. apply bl_accel_full.
Qed.
Lemma kn_f_vec_spec c G Cc o x v v' a : kn_f_vec c G Cc o x v = Ok (v', a) ->
  v' = v /\ exists ch F g, kn_christoffels c G Cc o x = Ok ch /\ em_tensor_contravariant c G Cc o x = Ok F /\ kn_cov c G Cc o x = Ok g
   /\ a = vsub (geodesic_accel ch v) (vscal (q_val (mo_q o)) (vm (mv F v) g)).
Proof.
  unfold kn_f_vec. destruct (mo_sys o) eqn:Hs; try discriminate. intros H. apply bindR_Ok in H. destruct H as [ch [Hc H]].
  apply bindR_Ok in H. destruct H as [F [HF H]]. apply bindR_Ok in H. destruct H as [g [Hg H]].
  apply Ok_inj in H. injection H as <- <-. split; [reflexivity|]. exists ch, F, g. split; [exact Hc|]. split; [exact HF|]. split; [exact Hg|].
  unfold kn_christoffels in Hc. rewrite Hs in Hc. apply bindR_Ok in Hc. destruct Hc as [gc [_ Hc]]. apply bindR_Ok in Hc.
  destruct Hc as [dg [_ Hc]]. apply Ok_inj in Hc. subst ch. rewrite bl_accel_full. reflexivity.
Qed.
Lemma kn_f_vec_uncharged c G Cc o x v v' a : q_val (mo_q o) = 0 -> kn_f_vec c G Cc o x v = Ok (v', a) ->
  v' = v /\ exists ch, kn_christoffels c G Cc o x = Ok ch /\ a = geodesic_accel ch v.
Proof.
  intros Hq H. apply kn_f_vec_spec in H. destruct H as [-> [ch [F [g [H1 [_ [_ ->]]]]]]]. split; [reflexivity|]. exists ch; split; [exact H1|].
  rewrite Hq. apply Q4_eq; unfold vsub, vscal, q4map2, q4map; cbn [c0 c1 c2 c3]; ring.
Qed.

(** *** C40: conservation of g(v,v) *)
Lemma sch_norm c G o p w t v' a : c <> 0 -> has_velocity p t (w t) -> sch_f_vec c G o (p t) (w t) = Ok (v', a) -> has_velocity w t a ->
  is_derive (norm_along (sch_cov c G o) p w) t 0.
Proof.
  intros Hc Hp H Hw. apply sch_f_vec_spec in H. destruct H as [-> [ch [Hch ->]]].
  assert (C := sch_connection c G o (p t) ch Hc Hch). destruct C as [g [gi [dg [Hg C]]]].
  apply norm_connection with (ch := ch) (g := g); try assumption.
  - unfold sch_cov in Hg. destruct (mo_sys o); try discriminate. apply finite_if_inv in Hg. destruct Hg as [-> _]. apply sch_g_sym.
  - exists g, gi, dg. split; assumption.
Qed.
Lemma kn_norm c G Cc o p w t v' a : q_val (mo_q o) = 0 -> has_velocity p t (w t) -> kn_f_vec c G Cc o (p t) (w t) = Ok (v', a) -> has_velocity w t a ->
  is_derive (norm_along (kn_cov c G Cc o) p w) t 0.
Proof.
  intros Hq Hp H Hw. apply kn_f_vec_uncharged in H; [|exact Hq]. destruct H as [-> [ch [Hch ->]]].
  assert (C := kn_connection c G Cc o (p t) ch Hch). destruct C as [g [gi [dg [Hg C]]]].
  apply norm_connection with (ch := ch) (g := g); try assumption.
  - assert (D := kn_cov_dom _ _ _ _ _ _ Hg). rewrite kn_cov_eq in Hg by exact D. apply Ok_inj in Hg. subst g. apply kn_g_sym.
  - exists g, gi, dg. split; assumption.
Qed.
(** constant over any interval on which the curve follows f_vec *)
Lemma constant_of_derive (f : R -> R) a b : a <= b -> (forall t, a <= t <= b -> is_derive f t 0) -> f a = f b.
Proof.
  intros Hab H. destruct (Rle_lt_or_eq_dec _ _ Hab) as [L|E]; [|subst; reflexivity].
  apply (eq_is_derive f a b); [intros t Ht; apply H; exact Ht|exact L].
Qed.
Lemma sch_norm_constant c G o p w a b : c <> 0 -> a <= b ->
  (forall t, a <= t <= b -> exists acc, has_velocity p t (w t) /\ sch_f_vec c G o (p t) (w t) = Ok (w t, acc) /\ has_velocity w t acc) ->
  norm_along (sch_cov c G o) p w a = norm_along (sch_cov c G o) p w b.
Proof.
  intros Hc Hab H. apply constant_of_derive; [exact Hab|]. intros t Ht. destruct (H t Ht) as [acc [H1 [H2 H3]]].
  eapply sch_norm; eassumption.
Qed.
Lemma kn_norm_constant c G Cc o p w a b : q_val (mo_q o) = 0 -> a <= b ->
  (forall t, a <= t <= b -> exists acc, has_velocity p t (w t) /\ kn_f_vec c G Cc o (p t) (w t) = Ok (w t, acc) /\ has_velocity w t acc) ->
  norm_along (kn_cov c G Cc o) p w a = norm_along (kn_cov c G Cc o) p w b.
Proof.
  intros Hc Hab H. apply constant_of_derive; [exact Hab|]. intros t Ht. destruct (H t Ht) as [acc [H1 [H2 H3]]].
  eapply kn_norm; eassumption.
Qed.

(** the Kerr class: exact drift caused by the wrong derivative entry *)
Lemma kerr_norm_drift c G Cc o p w t v' a : has_velocity p t (w t) -> kerr_f_vec c G Cc o (p t) (w t) = Ok (v', a) -> has_velocity w t a ->
  let al := al_of c G o in let r := c1 (p t) in let th := c2 (p t) in let sg := sg_of al r th in
  is_derive (norm_along (kerr_cov c G Cc o) p w) t
    (- (2 * (al * sin th) ^ 2 * (sch_rad c G o * (sg - 2 * r ^ 2) / sg ^ 2) * sin th ^ 2) * c1 (w t) * c3 (w t) ^ 2).
Proof.
  intros Hp H Hw. cbv zeta. apply kerr_f_vec_spec in H. destruct H as [-> [ch [Hch ->]]].
  destruct (kerr_christoffels_eq _ _ _ _ _ _ Hch) as [g [gc [dg [Hg [Hi [Hdg [He Hs]]]]]]].
  assert (D := kerr_cov_dom _ _ _ _ _ _ Hg).
  destruct (kerr_dgdx_exact c G Cc o (p t) dg (proj1 D) Hdg) as [dg' [Gd [Same Dif]]].
  eapply D_eq; [apply (norm_deriv _ p w t g dg' _ Hg Gd Hp Hw)|].
  rewrite (accel_ext ch (levi_civita gc dg) (w t) He). rewrite norm_rate_geodesic by assumption.
  rewrite <- Dif.
  assert (Z : forall k i j, (k, i, j) <> (1, 3, 3)%nat -> dg' k i j - dg k i j = 0) by (intros; rewrite Same by assumption; ring).
  unfold sum4. repeat match goal with |- context [dg' ?k ?i ?j - dg ?k ?i ?j] => rewrite (Z k i j) by discriminate end. cbn [q4nth]. ring.
Qed.
Lemma D_lin_path x v : has_velocity (fun s => vadd x (vscal s v)) 0 v.
Proof.
  intros k Hk. apply D_ext with (f := fun s => q4nth x k + s * q4nth v k).
  - intros s. idx4 k Hk; reflexivity.
  - eapply D_eq; [apply (D_plus (fun _ => q4nth x k) (fun s => s * q4nth v k)); [apply D_const|apply (D_mult (fun s => s) (fun _ => q4nth v k)); [apply D_id|apply D_const]]|].
    cbv beta. ring.
Qed.
Lemma vadd_0 x v : vadd x (vscal 0 v) = x.
Proof. destruct x, v. unfold vadd, vscal. cbv [q4map q4map2 Base.c0 Base.c1 Base.c2 Base.c3]. f_equal; ring. Qed.

Lemma kerr_norm_refuted c G Cc : 0 < c -> 0 < G ->
  exists o p w a d, mo_sys o = BL /\ valid_spin o /\ has_velocity p 0 (w 0)
    /\ kerr_f_vec c G Cc o (p 0) (w 0) = Ok (w 0, a) /\ has_velocity w 0 a
    /\ is_derive (norm_along (kerr_cov c G Cc o) p w) 0 d /\ d <> 0.
Proof.
  intros Hc HG. set (o := wit c G NKerr 1 0 0). set (x := mkQ4 0 3 (PI / 2) 0). set (v := mkQ4 1 1 0 1).
  assert (Hrs : sch_rad c G o = 2) by (apply wit_rs; assumption).
  assert (Hal : al_of c G o = 1) by (apply wit_al; assumption).
  assert (Hsg : sg_of (al_of c G o) (c1 x) (c2 x) = 9).
  { rewrite Hal. unfold sg_of, x. cbn [c1 c2]. rewrite cos_PI2. ring. }
  assert (Hdl : dl_of (sch_rad c G o) (al_of c G o) (c1 x) = 4).
  { rewrite Hal, Hrs. unfold dl_of, x. cbn [c1]. ring. }
  assert (Hv : valid_spin o) by (unfold valid_spin, o, wit; cbn [mo_a q_val]; lra).
  assert (D : bl_dom c G o x) by (repeat split; try apply Hv; rewrite ?Hsg, ?Hdl; lra).
  assert (exists a, kerr_f_vec c G Cc o x v = Ok (v, a)) as [a Ha].
  { destruct (proj2 (kn_contra_defined c G Cc o x ltac:(lra))) as [gi Hgi].
    { split; [exact D|]. unfold x; cbn [c2]. rewrite sin_PI2. lra. }
    unfold kerr_f_vec, kerr_christoffels. change (mo_sys o) with BL. cbv iota.
    unfold metric_contravariant in *. rewrite kerr_cov_is_kn, Hgi. cbn [bindR].
    unfold kerr_dgdx. rewrite bl_params_eq by exact Hv. cbn [bindR]. rewrite finite_if_ok by (rewrite Hsg, Hdl; repeat constructor; lra).
    cbn [bindR]. eauto. }
  exists o, (fun s => vadd x (vscal s v)), (fun s => vadd v (vscal s a)), a. eexists.
  rewrite !vadd_0. split; [reflexivity|]. split; [exact Hv|]. split; [apply D_lin_path|]. split; [exact Ha|]. split; [apply D_lin_path|].
  assert (K := kerr_norm_drift c G Cc o (fun s => vadd x (vscal s v)) (fun s => vadd v (vscal s a)) 0 v a).
  cbv beta zeta in K. rewrite !vadd_0 in K. split; [apply K; [apply D_lin_path|exact Ha|apply D_lin_path]|].
  rewrite Hsg, Hal, Hrs. unfold x, v; cbn [c1 c2 c3]. rewrite sin_PI2. lra.
Qed.
