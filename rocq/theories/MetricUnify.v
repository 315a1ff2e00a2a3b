(** C100, C101: how the numeric metric classes specialise to one another. *)
From Coq Require Import Reals List ZArith Lra Lia Bool.
From Coquelicot Require Import Coquelicot.
From Verif Require Import Base Calc GeoUtilsModel GeoUtilsProofs CoordModel CoordProofs2 ConvModel ConvProofs MetricModel MetricSpec MetricProofs MetricProofs2 MetricProofs3 MetricProofs4 MetricProofs5 MetricProofs6 MetricProofs7.
Import ListNotations.
Open Scope R_scope.

(** two objects for the same body: same mass and spin parameter *)
Definition same_body (o o' : mobj) : Prop := q_val (mo_M o) = q_val (mo_M o') /\ q_val (mo_a o) = q_val (mo_a o').
Definition spinless (o : mobj) : Prop := q_val (mo_a o) = 0.
Definition same_mass (o o' : mobj) : Prop := q_val (mo_M o) = q_val (mo_M o').

Lemma same_rad c G o o' : same_mass o o' -> sch_rad c G o = sch_rad c G o'.
Proof. unfold same_mass, sch_rad, schwarzschild_radius. cbn [prim]. intros ->. reflexivity. Qed.
Lemma same_al c G o o' : same_body o o' -> al_of c G o = al_of c G o'.
Proof. intros [A B]. unfold al_of. rewrite A, B. reflexivity. Qed.
Lemma spinless_al c G o : spinless o -> al_of c G o = 0.
Proof. unfold spinless, al_of. intros ->. ring. Qed.
Lemma spinless_valid o : spinless o -> valid_spin o.
Proof. unfold spinless, valid_spin. intros ->. lra. Qed.
Lemma spinless_sg r th : sg_of 0 r th = r ^ 2.
Proof. unfold sg_of. ring. Qed.
Lemma spinless_dl rs r : dl_of rs 0 r = r ^ 2 - rs * r.
Proof. unfold dl_of. ring. Qed.

(** uniqueness of the gradient and of the connection of a metric at a point *)
Lemma gradient_unique cov x dg dg' k i j : is_gradient cov x dg -> is_gradient cov x dg' ->
  (k < 4)%nat -> (i < 4)%nat -> (j < 4)%nat -> dg k i j = dg' k i j.
Proof.
  intros A B Hk Hi Hj. apply gradient_partials in A. apply gradient_partials in B.
  exact (D_unique _ _ _ _ (A k i j Hk Hi Hj) (B k i j Hk Hi Hj)).
Qed.
Lemma gradient_ext cov cov' x dg : (forall y, cov y = cov' y) -> is_gradient cov x dg -> is_gradient cov' x dg.
Proof.
  intros E A p t v Hp Hv. destruct (A p t v Hp Hv) as [L D]. split.
  - revert L. apply filter_imp. intros s [g Hg]. exists g. rewrite <- E. exact Hg.
  - intros i j Hi Hj. apply is_derive_ext with (f := fun s => entry (cov (p s)) i j); [intros s; rewrite E; reflexivity|].
    apply D; assumption.
Qed.
Lemma connection_ext cov cov' x ch : (forall y, cov y = cov' y) -> is_connection cov x ch -> is_connection cov' x ch.
Proof.
  intros E [g [gi [dg [A [B [D F]]]]]]. exists g, gi, dg. rewrite <- E. split; [exact A|]. split; [exact B|].
  split; [exact (gradient_ext _ _ _ _ E D)|exact F].
Qed.
Lemma lc_ext gi dg dg' : eq3 dg dg' -> eq3 (levi_civita gi dg) (levi_civita gi dg').
Proof.
  intros E i k l Hi Hk Hl. unfold levi_civita. f_equal. apply sum4_ext. intros m Hm. rewrite !E by assumption. reflexivity.
Qed.
Lemma connection_unique cov x ch ch' : is_connection cov x ch -> is_connection cov x ch' -> eq3 ch ch'.
Proof.
  intros [g [gi [dg [A [B [D F]]]]]] [g' [gi' [dg' [A' [B' [D' F']]]]]] i k l Hi Hk Hl.
  rewrite A in A'. apply Ok_inj in A'. subst g'. assert (gi = gi') by (eapply inverse_unique; eassumption). subst gi'.
  rewrite F, F' by assumption. apply lc_ext; try assumption. intros a b d Ha Hb Hd. eapply gradient_unique; eassumption.
Qed.

(** *** the metric arrays *)
Lemma kerr_body c G Cc o o' x : mo_sys o = BL -> mo_sys o' = BL -> same_body o o' -> kerr_cov c G Cc o x = kerr_cov c G Cc o' x.
Proof.
  intros S S' [A B]. unfold kerr_cov, bl_params. rewrite S, S', A, B. rewrite (same_rad c G o o' A). reflexivity.
Qed.
Lemma kn_body c G Cc o o' x : mo_sys o = BL -> mo_sys o' = BL -> same_body o o' -> kn_cov c G Cc o x = kn_cov c G Cc o' x.
Proof. intros. rewrite <- !kerr_cov_is_kn. apply kerr_body; assumption. Qed.

Lemma spinless_metric c G Cc o os x : mo_sys o = BL -> mo_sys os = Sph -> same_mass o os -> spinless o ->
  kerr_cov c G Cc o x = sch_cov c G os x /\ kn_cov c G Cc o x = sch_cov c G os x.
Proof.
  intros S S' A Z. rewrite <- kerr_cov_is_kn. cut (kerr_cov c G Cc o x = sch_cov c G os x); [tauto|].
  unfold kerr_cov, sch_cov. rewrite S, S', bl_params_eq by (apply spinless_valid; exact Z). cbn [bindR].
  rewrite (same_rad c G o os A), (spinless_al c G o Z), spinless_sg, spinless_dl.
  set (rs := sch_rad c G os). set (r := c1 x). set (th := c2 x). unfold finite_if. cbn [existsb].
  destruct (Req_EM_T r 0) as [E|E].
  { rewrite E. destruct (Req_EM_T (0 ^ 2) 0) as [|N]; [reflexivity|]. exfalso. apply N. ring. }
  destruct (Req_EM_T (r ^ 2) 0) as [N|_]; [exfalso; revert N; apply pow_nonzero; exact E|].
  destruct (Req_EM_T (r ^ 2 - rs * r) 0) as [D|D], (Req_EM_T (1 - rs / r) 0) as [D'|D']; cbn [orb]; try reflexivity.
  - exfalso. apply D'. replace (1 - rs / r) with ((r ^ 2 - rs * r) / r ^ 2) by (field; exact E). rewrite D. unfold Rdiv. ring.
  - exfalso. apply D. replace (r ^ 2 - rs * r) with (r ^ 2 * (1 - rs / r)) by (field; exact E). rewrite D'. ring.
  - f_equal. unfold kerr_g, sch_g.
    assert (N : r - rs <> 0). { intros K. apply D. replace rs with r by lra. ring. }
    f_equal; f_equal; try (unfold Rdiv; ring); try (field; repeat split; assumption).
Qed.

(** *** the connections *)
Lemma kn_christoffels_defined c G Cc o x : c <> 0 ->
  ((exists ch, kn_christoffels c G Cc o x = Ok ch) <-> bl_dom c G o x /\ sin (c2 x) <> 0).
Proof.
  intros Hc. rewrite <- (kn_contra_defined c G Cc o x Hc). unfold kn_christoffels. split.
  - intros [ch H]. destruct (mo_sys o) eqn:S; try discriminate. apply bindR_Ok in H. destruct H as [gc [H _]]. exists gc; exact H.
  - intros [gi H]. assert (D : bl_dom c G o x) by (apply (kn_contra_defined c G Cc o x Hc); exists gi; exact H).
    rewrite (proj1 D), H. cbn [bindR]. unfold kn_dgdx. rewrite kn_params_eq by apply D. cbn [bindR].
    rewrite finite_if_ok by (repeat constructor; apply D). cbn [bindR]. eexists; reflexivity.
Qed.
Lemma kerr_christoffels_defined c G Cc o x : c <> 0 ->
  ((exists ch, kerr_christoffels c G Cc o x = Ok ch) <-> bl_dom c G o x /\ sin (c2 x) <> 0).
Proof.
  intros Hc. rewrite <- (kn_contra_defined c G Cc o x Hc). unfold kerr_christoffels, metric_contravariant.
  rewrite <- (kerr_cov_is_kn c G Cc o x). split.
  - intros [ch H]. destruct (mo_sys o) eqn:S; try discriminate. apply bindR_Ok in H. destruct H as [gc [H _]]. exists gc; exact H.
  - intros [gi H]. assert (D : bl_dom c G o x). { assert (H' := H). apply bindR_Ok in H'. destruct H' as [g [Hg _]]. exact (kerr_cov_dom _ _ _ _ _ _ Hg). }
    rewrite (proj1 D), H. cbn [bindR]. unfold kerr_dgdx. rewrite bl_params_eq by apply D. cbn [bindR].
    rewrite finite_if_ok by (repeat constructor; apply D). cbn [bindR]. eexists; reflexivity.
Qed.

Lemma spinless_dom c G o os x : mo_sys o = BL -> mo_sys os = Sph -> same_mass o os -> spinless o ->
  (bl_dom c G o x <-> c1 x <> 0 /\ c1 x <> sch_rad c G os).
Proof.
  intros S S' A Z. unfold bl_dom. rewrite (spinless_al c G o Z), spinless_sg, spinless_dl, (same_rad c G o os A). split.
  - intros [_ [_ [H1 H2]]]. split; intros E; [apply H1|apply H2]; rewrite E; ring.
  - intros [H1 H2]. split; [exact S|]. split; [apply spinless_valid; exact Z|]. split; [apply pow_nonzero; exact H1|].
    intros E. apply H2. apply Rmult_eq_reg_l with (c1 x); [|exact H1]. lra.
Qed.

(** the error of the Kerr derivative array at [1,3,3] (C35), halved *)
Definition kerr_err (c G : R) (o : mobj) (x : V4) : R :=
  (al_of c G o * sin (c2 x)) ^ 2 * (sch_rad c G o * ((al_of c G o * cos (c2 x)) ^ 2 - c1 x ^ 2)
     / (c1 x ^ 2 + (al_of c G o * cos (c2 x)) ^ 2) ^ 2) * sin (c2 x) ^ 2.
Definition kd (i j : nat) : R := if Nat.eqb i j then 1 else 0.

Lemma kerr_minus_kn c G Cc o o' x ch ch' : mo_sys o' = BL -> same_body o o' ->
  kerr_christoffels c G Cc o x = Ok ch -> kn_christoffels c G Cc o' x = Ok ch' ->
  exists g gi, kerr_cov c G Cc o x = Ok g /\ is_inverse g gi /\ sym4 g /\
   forall i k l, (i < 4)%nat -> (k < 4)%nat -> (l < 4)%nat ->
    ch i k l - ch' i k l = kerr_err c G o x * (mnth gi i 3 * (kd k 1 * kd l 3 + kd k 3 * kd l 1) - mnth gi i 1 * (kd k 3 * kd l 3)).
Proof.
  intros S' SB Hk Hn. destruct (kerr_christoffels_eq _ _ _ _ _ _ Hk) as [g [gi [dg [Hg [Hi [Hd [E Sy]]]]]]].
  assert (D := kerr_cov_dom _ _ _ _ _ _ Hg). assert (S : mo_sys o = BL) by apply D.
  apply kn_connection in Hn.
  assert (Hn2 : is_connection (kerr_cov c G Cc o) x ch').
  { revert Hn. apply connection_ext. intros y. rewrite kerr_cov_is_kn. symmetry. apply kn_body; assumption. }
  destruct Hn2 as [g' [gi' [dg' [A' [B' [D' F']]]]]]. rewrite Hg in A'. apply Ok_inj in A'. subst g'.
  assert (gi = gi') by (eapply inverse_unique; eassumption). subst gi'.
  exists g, gi. split; [exact Hg|]. split; [exact Hi|]. split; [exact Sy|].
  destruct (kerr_dgdx_exact c G Cc o x dg S Hd) as [dt [Gt [Same Dif]]].
  assert (Q : forall k i j, (k < 4)%nat -> (i < 4)%nat -> (j < 4)%nat -> dg k i j = dg' k i j + 2 * kerr_err c G o x * (kd k 1 * kd i 3 * kd j 3)).
  { intros k i j Hk' Hi' Hj'. rewrite (gradient_unique _ _ _ _ k i j D' Gt Hk' Hi' Hj').
    destruct (Nat.eq_dec k 1) as [->|N1]. 2:{ rewrite Same by congruence. unfold kd. rewrite (proj2 (Nat.eqb_neq k 1) N1). ring. }
    destruct (Nat.eq_dec i 3) as [->|N2]. 2:{ rewrite Same by congruence. unfold kd. rewrite (proj2 (Nat.eqb_neq i 3) N2). ring. }
    destruct (Nat.eq_dec j 3) as [->|N3]. 2:{ rewrite Same by congruence. unfold kd. rewrite (proj2 (Nat.eqb_neq j 3) N3). ring. }
    change (kd 1 1) with 1. change (kd 3 3) with 1.
    replace (dg 1%nat 3%nat 3%nat) with (dt 1%nat 3%nat 3%nat + (dg 1%nat 3%nat 3%nat - dt 1%nat 3%nat 3%nat)) by ring.
    rewrite Dif. unfold kerr_err, sg_of. 
    replace ((c1 x ^ 2 + (al_of c G o * cos (c2 x)) ^ 2 - 2 * c1 x ^ 2)) with ((al_of c G o * cos (c2 x)) ^ 2 - c1 x ^ 2) by ring. unfold Rdiv. ring. }
  intros i k l Hi' Hk' Hl'. rewrite (E i k l Hi' Hk' Hl'), (F' i k l Hi' Hk' Hl').
  unfold levi_civita, sum4. rewrite !Q by lia.
  set (e := kerr_err c G o x).
  clear - Hk' Hl'. destruct k as [|[|[|[|k]]]]; try lia; destruct l as [|[|[|[|l]]]]; try lia; cbv [kd Nat.eqb]; field.
Qed.

Lemma spinless_err c G o x : spinless o -> kerr_err c G o x = 0.
Proof. intros Z. unfold kerr_err. rewrite (spinless_al c G o Z). ring. Qed.

(** C100: a Kerr or Kerr-Newman object without spin has the Christoffel symbols of the Schwarzschild object *)
Lemma spinless_christoffels c G Cc o os x : c <> 0 -> mo_sys o = BL -> mo_sys os = Sph -> same_mass o os -> spinless o ->
  ((exists ch, sch_christoffels c G os x = Ok ch) <-> (exists ch, kerr_christoffels c G Cc o x = Ok ch))
  /\ ((exists ch, sch_christoffels c G os x = Ok ch) <-> (exists ch, kn_christoffels c G Cc o x = Ok ch))
  /\ (forall ch ch', sch_christoffels c G os x = Ok ch -> kerr_christoffels c G Cc o x = Ok ch' -> eq3 ch ch')
  /\ (forall ch ch', sch_christoffels c G os x = Ok ch -> kn_christoffels c G Cc o x = Ok ch' -> eq3 ch ch').
Proof.
  intros Hc S S' A Z.
  assert (P1 : (exists ch, sch_christoffels c G os x = Ok ch) <-> (bl_dom c G o x /\ sin (c2 x) <> 0)).
  { rewrite sch_christoffels_defined, (spinless_dom c G o os x S S' A Z). tauto. }
  assert (KN : forall ch ch', sch_christoffels c G os x = Ok ch -> kn_christoffels c G Cc o x = Ok ch' -> eq3 ch ch').
  { intros ch ch' H H'. apply sch_connection in H; [|exact Hc]. apply kn_connection in H'.
    apply connection_unique with (cov := sch_cov c G os) (x := x); [exact H|].
    revert H'. apply connection_ext. intros y. apply (spinless_metric c G Cc o os y S S' A Z). }
  split; [rewrite P1; symmetry; apply kerr_christoffels_defined; exact Hc|].
  split; [rewrite P1; symmetry; apply kn_christoffels_defined; exact Hc|].
  split; [|exact KN].
  intros ch ch' H H'.
  assert (X : exists ch'', kn_christoffels c G Cc o x = Ok ch'').
  { apply kn_christoffels_defined; [exact Hc|]. apply (kerr_christoffels_defined c G Cc o x Hc). exists ch'; exact H'. }
  destruct X as [ch'' X]. destruct (kerr_minus_kn c G Cc o o x ch' ch'' S (conj eq_refl eq_refl) H' X) as [g [gi [_ [_ [_ Df]]]]].
  intros i k l Hi Hk Hl. rewrite (KN ch ch'' H X i k l Hi Hk Hl). specialize (Df i k l Hi Hk Hl).
  rewrite (spinless_err c G o x Z) in Df. lra.
Qed.

(** C100: the equations of motion *)
Lemma kn_f_vec_defined c G Cc o x v : 0 < c -> 0 < G -> 0 < Cc -> bl_dom c G o x -> sin (c2 x) <> 0 -> exists y, kn_f_vec c G Cc o x v = Ok y.
Proof.
  intros Hc HG HC D Hs. unfold kn_f_vec. rewrite (proj1 D).
  assert (Hc' : c <> 0) by lra.
  destruct (proj2 (kn_christoffels_defined c G Cc o x Hc') (conj D Hs)) as [ch ->]. cbn [bindR].
  destruct (proj2 (kn_contra_defined c G Cc o x Hc') (conj D Hs)) as [gi Hgi].
  assert (EF : exists F, em_tensor_contravariant c G Cc o x = Ok F).
  { unfold em_tensor_contravariant. rewrite Hgi.
    assert (K : exists F, em_tensor_covariant c G Cc o x = Ok F).
    { unfold em_tensor_covariant. rewrite bm_alpha_valid by apply D. cbn [bindR]. rewrite (rQ_ok c G Cc o Hc HG HC). cbn [bindR].
      destruct (kn_params c G Cc o x) as [y|] eqn:Ey.
      2:{ rewrite kn_params_eq in Ey by apply D. discriminate. }
      assert (Ey' := Ey). unfold kn_params in Ey. rewrite bm_alpha_valid in Ey by apply D. cbn [bindR] in Ey.
      apply bindR_Ok in Ey. destruct Ey as [rh [Erh Ey]]. cbn [bindR] in *. rewrite Erh. cbn [bindR].
      apply bindR_Ok in Ey. destruct Ey as [dl [_ Ey]]. rewrite kn_params_eq in Ey' by apply D. rewrite <- Ey in Ey'.
      apply Ok_inj in Ey'. injection Ey' as E2 _. eexists. apply finite_if_ok. constructor; [|constructor].
      change (rh * (rh * 1)) with (rh ^ 2) in E2. rewrite <- E2. apply D. }
    destruct K as [F ->]. cbn [bindR]. eexists; reflexivity. }
  destruct EF as [F ->]. cbn [bindR]. rewrite kn_cov_eq by exact D. cbn [bindR]. eexists; reflexivity.
Qed.
Lemma kerr_f_vec_defined c G Cc o x v : c <> 0 -> bl_dom c G o x -> sin (c2 x) <> 0 -> exists y, kerr_f_vec c G Cc o x v = Ok y.
Proof.
  intros Hc D Hs. unfold kerr_f_vec. rewrite (proj1 D).
  destruct (proj2 (kerr_christoffels_defined c G Cc o x Hc) (conj D Hs)) as [ch ->]. cbn [bindR]. eexists; reflexivity.
Qed.

Lemma spinless_f_vec c G Cc o os x v y : 0 < c -> 0 < G -> 0 < Cc -> mo_sys o = BL -> mo_sys os = Sph -> same_mass o os -> spinless o ->
  sch_f_vec c G os x v = Ok y ->
  kerr_f_vec c G Cc o x v = Ok y /\ (q_val (mo_q o) = 0 -> kn_f_vec c G Cc o x v = Ok y).
Proof.
  intros Hc HG HC S S' A Z H. assert (Hc' : c <> 0) by lra. destruct y as [v' a].
  apply sch_f_vec_spec in H. destruct H as [-> [ch [Hch Ha]]].
  assert (DD : bl_dom c G o x /\ sin (c2 x) <> 0).
  { apply (kn_christoffels_defined c G Cc o x Hc'). apply (spinless_christoffels c G Cc o os x Hc' S S' A Z). exists ch; exact Hch. }
  destruct DD as [D Hs]. destruct (spinless_christoffels c G Cc o os x Hc' S S' A Z) as [_ [_ [K1 K2]]]. split.
  - destruct (kerr_f_vec_defined c G Cc o x v Hc' D Hs) as [[v1 a1] E]. rewrite E. apply kerr_f_vec_spec in E.
    destruct E as [-> [ch' [E ->]]]. rewrite Ha. do 2 f_equal. apply accel_ext. intros i k l Hi Hk Hl. symmetry. apply (K1 ch ch' Hch E); assumption.
  - intros Hq. destruct (kn_f_vec_defined c G Cc o x v Hc HG HC D Hs) as [[v1 a1] E]. rewrite E. apply (kn_f_vec_uncharged _ _ _ _ _ _ _ _ Hq) in E.
    destruct E as [-> [ch' [E ->]]]. rewrite Ha. do 2 f_equal. apply accel_ext. intros i k l Hi Hk Hl. symmetry. apply (K2 ch ch' Hch E); assumption.
Qed.

(** C101: for the same body, uncharged particle: the accelerations agree for every velocity exactly where the error vanishes *)
Lemma accel_diff e ch ch' gi v : (forall i k l, (i < 4)%nat -> (k < 4)%nat -> (l < 4)%nat ->
    ch i k l - ch' i k l = e * (mnth gi i 3 * (kd k 1 * kd l 3 + kd k 3 * kd l 1) - mnth gi i 1 * (kd k 3 * kd l 3))) ->
  forall i, (i < 4)%nat -> q4nth (geodesic_accel ch v) i - q4nth (geodesic_accel ch' v) i
    = e * (mnth gi i 1 * c3 v ^ 2 - 2 * mnth gi i 3 * c1 v * c3 v).
Proof.
  intros H i Hi.
  assert (E : forall f g, (forall k, (k < 4)%nat -> f k = g k) -> sum4 f = sum4 g) by apply sum4_ext.
  assert (Q : forall k l, (k < 4)%nat -> (l < 4)%nat -> ch i k l = ch' i k l + e * (mnth gi i 3 * (kd k 1 * kd l 3 + kd k 3 * kd l 1) - mnth gi i 1 * (kd k 3 * kd l 3))).
  { intros k l Hk Hl. rewrite <- (H i k l Hi Hk Hl). ring. }
  unfold geodesic_accel. rewrite !q4nth_tab by exact Hi. unfold sum4. rewrite !Q by lia. cbv [kd Nat.eqb]. cbn [q4nth]. ring.
Qed.

Lemma kerr_vs_kn c G Cc o o' x : 0 < c -> 0 < G -> 0 < Cc -> mo_sys o = BL -> mo_sys o' = BL -> same_body o o' -> q_val (mo_q o') = 0 ->
  (forall y, kerr_cov c G Cc o y = kn_cov c G Cc o' y)
  /\ forall v v1 a, kerr_f_vec c G Cc o x v = Ok (v1, a) ->
     exists a' g gi, kn_f_vec c G Cc o' x v = Ok (v1, a') /\ kerr_cov c G Cc o x = Ok g /\ is_inverse g gi
     /\ (forall i, (i < 4)%nat -> q4nth a i - q4nth a' i = kerr_err c G o x * (mnth gi i 1 * c3 v ^ 2 - 2 * mnth gi i 3 * c1 v * c3 v)).
Proof.
  intros Hc HG HC S S' SB Hq. assert (Hc' : c <> 0) by lra. split.
  { intros y. rewrite kerr_cov_is_kn. apply kn_body; assumption. }
  intros v v1 a H. apply kerr_f_vec_spec in H. destruct H as [-> [ch [Hch ->]]].
  assert (DD : bl_dom c G o x /\ sin (c2 x) <> 0) by (apply (kerr_christoffels_defined c G Cc o x Hc'); exists ch; exact Hch).
  destruct DD as [D Hs].
  assert (D' : bl_dom c G o' x).
  { destruct D as [_ [D1 D2]]. unfold bl_dom, valid_spin in *. rewrite <- (same_al c G o o' SB), <- (same_rad c G o o' (proj1 SB)), <- (proj2 SB). tauto. }
  destruct (kn_f_vec_defined c G Cc o' x v Hc HG HC D' Hs) as [[v2 a2] E].
  assert (E' := kn_f_vec_uncharged _ _ _ _ _ _ _ _ Hq E). destruct E' as [-> [ch' [Hch' ->]]].
  destruct (kerr_minus_kn c G Cc o o' x ch ch' S' SB Hch Hch') as [g [gi [Hg [Hi [_ Df]]]]].
  exists (geodesic_accel ch' v), g, gi. split; [exact E|]. split; [exact Hg|]. split; [exact Hi|].
  apply accel_diff. exact Df.
Qed.
Lemma kerr_vs_kn_iff c G Cc o o' x : 0 < c -> 0 < G -> 0 < Cc -> mo_sys o = BL -> mo_sys o' = BL -> same_body o o' -> q_val (mo_q o') = 0 ->
  bl_dom c G o x -> sin (c2 x) <> 0 ->
  ((forall v, kerr_f_vec c G Cc o x v = kn_f_vec c G Cc o' x v) <-> kerr_err c G o x = 0).
Proof.
  intros Hc HG HC S S' SB Hq D Hs. assert (Hc' : c <> 0) by lra.
  destruct (kerr_vs_kn c G Cc o o' x Hc HG HC S S' SB Hq) as [_ K]. split.
  - intros A. destruct (kerr_f_vec_defined c G Cc o x (mkQ4 0 0 0 1) Hc' D Hs) as [[v1 a] E].
    destruct (K _ _ _ E) as [a' [g [gi [E' [Hg [Hi Df]]]]]]. rewrite A, E' in E. apply Ok_inj in E. injection E as ->.
    specialize (Df 1%nat ltac:(lia)). cbn [c1 c3] in Df.
    assert (G1 : mnth gi 1 1 <> 0).
    { intros Z. destruct Hi as [Hi _]. assert (H11 := mm_entry g gi 1 1 ltac:(lia) ltac:(lia)). rewrite Hi in H11.
      rewrite kerr_cov_eq in Hg by exact D. apply Ok_inj in Hg. subst g. unfold sum4 in H11. rewrite Z in H11.
      cbv [kerr_g mnth q4nth id4 mtab q4tab Nat.eqb] in H11. cbn [c0 c1 c2 c3] in H11. lra. }
    apply Rmult_eq_reg_r with (mnth gi 1 1); [|exact G1].
    replace (kerr_err c G o x * mnth gi 1 1) with (kerr_err c G o x * (mnth gi 1 1 * 1 ^ 2 - 2 * mnth gi 1 3 * 0 * 1)) by ring.
    rewrite <- Df. ring.
  - intros Z v. destruct (kerr_f_vec_defined c G Cc o x v Hc' D Hs) as [[v1 a] E]. rewrite E.
    destruct (K _ _ _ E) as [a' [g [gi [E' [_ [_ Df]]]]]]. rewrite E'. do 2 f_equal.
    assert (Q : forall i, (i < 4)%nat -> q4nth a i = q4nth a' i). { intros i Hi. specialize (Df i Hi). rewrite Z in Df. lra. }
    apply Q4_eq; [apply (Q 0%nat)|apply (Q 1%nat)|apply (Q 2%nat)|apply (Q 3%nat)]; lia.
Qed.
Lemma kerr_vs_kn_refuted c G Cc : 0 < c -> 0 < G -> 0 < Cc ->
  exists o o' x v, mo_sys o = BL /\ mo_sys o' = BL /\ same_body o o' /\ q_val (mo_Q o') = 0 /\ q_val (mo_q o') = 0
   /\ (exists y, kerr_f_vec c G Cc o x v = Ok y) /\ (exists y, kn_f_vec c G Cc o' x v = Ok y)
   /\ kerr_f_vec c G Cc o x v <> kn_f_vec c G Cc o' x v.
Proof.
  intros Hc HG HC. set (o := wit c G NKerr 1 0 0). set (o' := wit c G NKerrNewman 1 0 0). set (x := mkQ4 0 3 (PI / 2) 0).
  assert (Hrs : sch_rad c G o = 2) by (apply wit_rs; assumption).
  assert (Hal : al_of c G o = 1) by (apply wit_al; assumption).
  assert (Hv : valid_spin o) by (unfold valid_spin, o, wit; cbn [mo_a q_val]; lra).
  assert (D : bl_dom c G o x).
  { split; [reflexivity|]. split; [exact Hv|]. rewrite Hal, Hrs. unfold sg_of, dl_of, x. cbn [c1 c2]. split; [|lra].
    rewrite cos_PI2. apply Rgt_not_eq. lra. }
  assert (Hs : sin (c2 x) <> 0) by (unfold x; cbn [c2]; rewrite sin_PI2; lra).
  assert (SB : same_body o o') by (split; reflexivity).
  assert (NE : kerr_err c G o x <> 0).
  { unfold kerr_err. rewrite Hal, Hrs. unfold x. cbn [c1 c2]. rewrite sin_PI2, cos_PI2. 
    replace ((1 * 1) ^ 2 * (2 * ((1 * 0) ^ 2 - 3 ^ 2) / (3 ^ 2 + (1 * 0) ^ 2) ^ 2) * 1 ^ 2) with (- (2 / 9)) by field. lra. }
  assert (X : ~ forall v, kerr_f_vec c G Cc o x v = kn_f_vec c G Cc o' x v).
  { intros A. apply NE. apply (kerr_vs_kn_iff c G Cc o o' x); try assumption; reflexivity. }
  apply Classical_Pred_Type.not_all_ex_not in X. destruct X as [v X]. exists o, o', x, v.
  split; [reflexivity|]. split; [reflexivity|]. split; [exact SB|]. split; [reflexivity|]. split; [reflexivity|].
  assert (D' : bl_dom c G o' x).
  { destruct D as [_ [D1 D2]]. unfold bl_dom, valid_spin in *. rewrite <- (same_al c G o o' SB), <- (same_rad c G o o' (proj1 SB)), <- (proj2 SB). tauto. }
  split; [apply kerr_f_vec_defined; try assumption; lra|]. split; [apply kn_f_vec_defined; assumption|]. exact X.
Qed.

(** C100: the singularities reported for a Kerr or Kerr-Newman object without spin and charge *)
Lemma spinless_singularities c G Cc o os : c <> 0 -> 0 <= G -> 0 <= q_val (mo_M o) ->
  mo_name o = NKerr \/ mo_name o = NKerrNewman -> mo_name os = NSchwarzschild ->
  mo_sys o = BL -> mo_sys os = Sph -> same_mass o os -> spinless o -> spinless os -> q_val (mo_Q o) = 0 ->
  exists s s', singularities c G Cc o = Ok s /\ singularities c G Cc os = Ok s'
   /\ in_hor s = in_hor s' /\ out_hor s = out_hor s'
   /\ (forall th, in_ergo s th = in_ergo s' th) /\ (forall th, out_ergo s th = out_ergo s' th).
Proof.
  intros Hc HG HM Hn Hn' S S' A Z Z' HQ. unfold singularities.
  rewrite !bm_alpha_valid by (apply spinless_valid; assumption). cbn [bindR]. rewrite Hn', S, S', HQ, <- A.
  unfold spinless in Z. rewrite Z. set (rs := 2 * q_val (mo_M o) * G / c ^ 2).
  assert (P : 0 <= rs). { unfold rs, Rdiv. apply Rmult_le_pos; [apply Rmult_le_pos; lra|]. left. apply Rinv_0_lt_compat. 
    apply pow2_gt_0. exact Hc. }
  assert (SQ : forall k, k = rs ^ 2 -> np_sqrt k = Ok rs).
  { intros k ->. unfold np_sqrt. destruct (Rle_dec 0 (rs ^ 2)) as [L|N]; [|exfalso; apply N; apply pow2_ge_0].
    f_equal. replace (rs ^ 2) with (rs * rs) by ring. apply sqrt_square. exact P. }
  assert (EQ : forall X, (match mo_name o with NKerr | NKerrNewman => X | _ => Err CoordinateError end : Res sing) = X).
  { intros X. destruct Hn as [-> | ->]; reflexivity. }
  assert (S1 : np_sqrt (rs ^ 2 - 4 * (0 * (G * q_val (mo_M o) / c ^ 2)) ^ 2 - 4 * (0 ^ 2 * G * Cc / c ^ 4)) = Ok rs) by (apply SQ; field; exact Hc).
  assert (S2 : forall th, np_sqrt (rs ^ 2 - 4 * (0 * (G * q_val (mo_M o) / c ^ 2) * cos th) ^ 2 - 4 * (0 ^ 2 * G * Cc / c ^ 4)) = Ok rs)
   by (intros th; apply SQ; field; exact Hc).
  destruct Hn as [-> | ->]; cbn [prim]; rewrite S1; cbn [bindR]; (do 2 eexists; split; [reflexivity|]; split; [reflexivity|]; cbn [in_hor out_hor in_ergo out_ergo];
   split; [field|]; split; [field|]; split; intros th; rewrite S2; cbn [bindR]; f_equal; field).
Qed.
Lemma spinless_f_vec_back c G Cc o os x v y : 0 < c -> 0 < G -> 0 < Cc -> mo_sys o = BL -> mo_sys os = Sph -> same_mass o os -> spinless o ->
  q_val (mo_q o) = 0 -> kerr_f_vec c G Cc o x v = Ok y \/ kn_f_vec c G Cc o x v = Ok y -> sch_f_vec c G os x v = Ok y.
Proof.
  intros Hc HG HC S S' A Z Hq H. assert (Hc' : c <> 0) by lra.
  assert (DD : exists ch, sch_christoffels c G os x = Ok ch).
  { destruct y as [v' a]. destruct H as [H|H].
    - apply kerr_f_vec_spec in H. destruct H as [_ [ch [H _]]]. apply (proj1 (spinless_christoffels c G Cc o os x Hc' S S' A Z)). exists ch; exact H.
    - apply kn_f_vec_spec in H. destruct H as [_ [ch [_ [_ [H _]]]]]. apply (proj1 (proj2 (spinless_christoffels c G Cc o os x Hc' S S' A Z))). exists ch; exact H. }
  destruct DD as [ch Hch]. assert (E : exists y', sch_f_vec c G os x v = Ok y').
  { unfold sch_f_vec. rewrite S', Hch. cbn [bindR]. eexists; reflexivity. }
  destruct E as [y' E]. destruct (spinless_f_vec c G Cc o os x v y' Hc HG HC S S' A Z E) as [E1 E2]. specialize (E2 Hq).
  rewrite E. destruct H as [H|H]; [rewrite E1 in H|rewrite E2 in H]; exact H.
Qed.
