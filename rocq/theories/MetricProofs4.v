From Coq Require Import Reals List ZArith Lra Lia Bool.
From Coquelicot Require Import Coquelicot.
From Verif Require Import Base Calc GeoUtilsModel GeoUtilsProofs CoordModel CoordProofs2 ConvModel ConvProofs MetricModel MetricSpec MetricProofs MetricProofs2 MetricProofs3.
Import ListNotations.
Open Scope R_scope.

Definition sym4 (g : M4) : Prop := forall i j, (i < 4)%nat -> (j < 4)%nat -> mnth g i j = mnth g j i.
Lemma sch_g_sym c rs r th : sym4 (sch_g c rs r th).
Proof. intros i j Hi Hj. idx4 i Hi; (idx4 j Hj); reflexivity. Qed.
Lemma kerr_g_sym c rs al sg dl r th : sym4 (kerr_g c rs al sg dl r th).
Proof. intros i j Hi Hj. idx4 i Hi; (idx4 j Hj); reflexivity. Qed.
Lemma kn_g_sym c al sg dl r th : sym4 (kn_g c al sg dl r th).
Proof. intros i j Hi Hj. idx4 i Hi; (idx4 j Hj); reflexivity. Qed.

(** inverse of a block matrix is block *)
Lemma block_inv (a b d e f g : R) gi :
  np_inv (mkQ4 (mkQ4 a 0 0 b) (mkQ4 0 d 0 0) (mkQ4 0 0 e 0) (mkQ4 g 0 0 f)) = Ok gi -> block_contra gi.
Proof.
  unfold np_inv. destruct (Req_EM_T _ 0) as [|Hd]; [discriminate|]. intros H; apply Ok_inj in H. subst gi.
  intros i j Hi Hj B. rewrite mnth_tab by assumption. unfold adj4. rewrite mnth_tab by assumption.
  match goal with |- ?n / ?d = 0 => assert (N : n = 0); [|rewrite N; unfold Rdiv; ring] end. clear Hd.
  idx4 i Hi; (idx4 j Hj); try discriminate B;
  cbv [sgn4 minor4 skip mnth q4nth Nat.ltb Nat.leb Nat.even Nat.add c0 c1 c2 c3]; ring.
Qed.

Lemma kerr_dg_block c rs al sg dl r th : block_grad (kerr_dg c rs al sg dl r th).
Proof.
  split.
  - intros k i j Hk Hi Hj B. idx4 k Hk; (idx4 i Hi); (idx4 j Hj); try discriminate B; reflexivity.
  - intros k i j Hk Hi Hj. idx4 k Hk; (idx4 i Hi); (idx4 j Hj); reflexivity.
Qed.
Lemma kn_dg_block c rs al sg dl r th : block_grad (kn_dg c rs al sg dl r th).
Proof.
  split.
  - intros k i j Hk Hi Hj B. idx4 k Hk; (idx4 i Hi); (idx4 j Hj); try discriminate B; reflexivity.
  - intros k i j Hk Hi Hj. idx4 k Hk; (idx4 i Hi); (idx4 j Hj); reflexivity.
Qed.

Lemma r2_sg al r th : r ^ 2 + al ^ 2 = sg_of al r th + (al * sin th) ^ 2.
Proof. unfold sg_of. rewrite !Rpow_mult_distr, sin2_pow. ring. Qed.

(** determinants *)
Lemma det_kn c al r th dl : sg_of al r th <> 0 -> dl <> 0 ->
  det4 (kn_g c al (sg_of al r th) dl r th) = - (c ^ 2 * sg_of al r th ^ 2 * sin th ^ 2).
Proof.
  intros H1 H2. cbv [det4 minor4 skip kn_g mnth q4nth Nat.ltb Nat.leb]; cbn [c0 c1 c2 c3].
  replace (dl - r ^ 2 - al ^ 2) with (dl - (r ^ 2 + al ^ 2)) by ring. rewrite (r2_sg al r th).
  revert H1. generalize (sg_of al r th) (sin th). intros sg s H1. field. split; assumption.
Qed.
Lemma kerr_kn c rs al r th : sg_of al r th <> 0 -> dl_of rs al r <> 0 ->
  kerr_g c rs al (sg_of al r th) (dl_of rs al r) r th = kn_g c al (sg_of al r th) (dl_of rs al r) r th.
Proof.
  intros H1 H2.
  assert (E : rs * r = sg_of al r th + (al * sin th) ^ 2 - dl_of rs al r).
  { rewrite <- (r2_sg al r th). unfold dl_of. ring. }
  apply M4_eq. intros i j Hi Hj.
  idx4 i Hi; (idx4 j Hj); cbv [kerr_g kn_g mnth q4nth]; cbn [c0 c1 c2 c3]; try reflexivity.
  - rewrite E. revert H1 H2. generalize (sg_of al r th) (dl_of rs al r) (sin th). intros sg dl s H1 H2. field. exact H1.
  - replace (c * rs * r * al * sin th ^ 2) with (c * (rs * r) * al * sin th ^ 2) by ring. rewrite E.
    replace (dl_of rs al r - r ^ 2 - al ^ 2) with (dl_of rs al r - (r ^ 2 + al ^ 2)) by ring. rewrite (r2_sg al r th).
    revert H1 H2. generalize (sg_of al r th) (dl_of rs al r) (sin th). intros sg dl s H1 H2. field. exact H1.
  - revert H1 H2. generalize (sg_of al r th) (dl_of rs al r) (sin th). intros sg dl s H1 H2. field. exact H2.
  - replace (c * rs * r * al * sin th ^ 2) with (c * (rs * r) * al * sin th ^ 2) by ring. rewrite E.
    replace (dl_of rs al r - r ^ 2 - al ^ 2) with (dl_of rs al r - (r ^ 2 + al ^ 2)) by ring. rewrite (r2_sg al r th).
    revert H1 H2. generalize (sg_of al r th) (dl_of rs al r) (sin th). intros sg dl s H1 H2. field. exact H1.
  - rewrite E. rewrite (r2_sg al r th).
    revert H1 H2. generalize (sg_of al r th) (dl_of rs al r) (sin th). intros sg dl s H1 H2. field. exact H1.
Qed.

(** ** contravariant metrics and connections *)
Lemma kn_contra_defined c G Cc o x : c <> 0 ->
  ((exists gi, metric_contravariant (kn_cov c G Cc o) x = Ok gi) <-> bl_dom c G o x /\ sin (c2 x) <> 0).
Proof.
  intros Hc. unfold metric_contravariant. split.
  - intros [gi H]. apply bindR_Ok in H. destruct H as [g [Hg H]]. assert (D := kn_cov_dom _ _ _ _ _ _ Hg). split; [exact D|].
    intros E. rewrite kn_cov_eq in Hg by exact D. apply Ok_inj in Hg. subst g. revert H. unfold np_inv.
    destruct D as [_ [_ [H3 H4]]]. rewrite det_kn by assumption. rewrite E. destruct Req_EM_T as [|N]; [discriminate|]. exfalso; apply N; ring.
  - intros [D S]. rewrite kn_cov_eq by exact D. cbn [bindR]. apply np_inv_defined.
    destruct D as [_ [_ [H3 H4]]]. rewrite det_kn by assumption.
    apply Ropp_neq_0_compat. apply Rmult_integral_contrapositive_currified; [apply Rmult_integral_contrapositive_currified|]; apply pow_nonzero; assumption.
Qed.
Lemma kerr_cov_is_kn c G Cc o x : kerr_cov c G Cc o x = kn_cov c G Cc o x.
Proof.
  destruct (kerr_cov c G Cc o x) as [g|e] eqn:E.
  - assert (D := kerr_cov_dom _ _ _ _ _ _ E). rewrite kerr_cov_eq in E by exact D. apply Ok_inj in E. subst g.
    rewrite kn_cov_eq by exact D. f_equal. apply kerr_kn; apply D.
  - destruct (kn_cov c G Cc o x) as [g'|e'] eqn:E'.
    + assert (D := kn_cov_dom _ _ _ _ _ _ E'). rewrite kerr_cov_eq in E by exact D. discriminate.
    + revert E E'. unfold kerr_cov, kn_cov. destruct (mo_sys o); try congruence.
      destruct (Rle_dec 0 (q_val (mo_a o))), (Rle_dec (q_val (mo_a o)) 1).
      2-4: destruct (params_invalid c G Cc o x) as [A B]; [unfold valid_spin; lra|]; rewrite A, B; cbn [bindR]; congruence.
      rewrite bl_params_eq, kn_params_eq by (split; assumption). cbn [bindR]. unfold finite_if.
      destruct (existsb _ _); [congruence|discriminate].
Qed.

Lemma kn_connection c G Cc o x ch : kn_christoffels c G Cc o x = Ok ch -> is_connection (kn_cov c G Cc o) x ch.
Proof.
  unfold kn_christoffels. destruct (mo_sys o) eqn:Hs; try discriminate. intros H. apply bindR_Ok in H. destruct H as [gc [Hg H]].
  apply bindR_Ok in H. destruct H as [dg [Hd H]]. apply Ok_inj in H. subst ch.
  unfold metric_contravariant in Hg. apply bindR_Ok in Hg. destruct Hg as [g [Hg Hi]].
  assert (D := kn_cov_dom _ _ _ _ _ _ Hg).
  unfold kn_dgdx in Hd. rewrite kn_params_eq in Hd by apply D. cbn [bindR] in Hd. apply finite_if_inv in Hd. destruct Hd as [-> _].
  exists g, gc. eexists. split; [exact Hg|]. split; [apply np_inv_ok; exact Hi|]. split; [apply kn_gradient; exact D|].
  rewrite kn_cov_eq in Hg by exact D. apply Ok_inj in Hg. subst g.
  apply sparse_complete; [eapply block_inv; exact Hi|apply kn_dg_block].
Qed.

Lemma kerr_christoffels_eq c G Cc o x ch : kerr_christoffels c G Cc o x = Ok ch ->
  exists g gc dg, kerr_cov c G Cc o x = Ok g /\ is_inverse g gc /\ kerr_dgdx c G Cc o x = Ok dg
    /\ eq3 ch (levi_civita gc dg) /\ sym4 g.
Proof.
  unfold kerr_christoffels. destruct (mo_sys o) eqn:Hs; try discriminate. intros H. apply bindR_Ok in H. destruct H as [gc [Hg H]].
  apply bindR_Ok in H. destruct H as [dg [Hd H]]. apply Ok_inj in H. subst ch.
  unfold metric_contravariant in Hg. apply bindR_Ok in Hg. destruct Hg as [g [Hg Hi]].
  assert (D := kerr_cov_dom _ _ _ _ _ _ Hg). exists g, gc, dg. split; [exact Hg|]. split; [apply np_inv_ok; exact Hi|].
  split; [exact Hd|].
  unfold kerr_dgdx in Hd. rewrite bl_params_eq in Hd by apply D. cbn [bindR] in Hd. apply finite_if_inv in Hd. destruct Hd as [-> _].
  rewrite kerr_cov_eq in Hg by exact D. apply Ok_inj in Hg. subst g.
  split; [|apply kerr_g_sym].
  apply sparse_complete; [eapply block_inv; exact Hi|apply kerr_dg_block].
Qed.

(** ** C35 / C36 *)
Lemma kn_dgdx_gradient c G Cc o x dg : mo_sys o = BL -> kn_dgdx c G Cc o x = Ok dg -> is_gradient (kn_cov c G Cc o) x dg.
Proof.
  intros Hs H. unfold kn_dgdx in H. assert (H' := H). apply bindR_Ok in H'. destruct H' as [y [Hy _]].
  apply kn_params_ok in Hy. rewrite kn_params_eq in H by exact Hy. cbn [bindR] in H. apply finite_if_inv in H. destruct H as [-> H].
  inversion_clear H as [|? ? H1 H2]. inversion_clear H2 as [|? ? H3 _].
  apply kn_gradient. repeat split; try assumption; apply Hy.
Qed.
Lemma kerr_dgdx_exact c G Cc o x dg : mo_sys o = BL -> kerr_dgdx c G Cc o x = Ok dg ->
  exists dg', is_gradient (kerr_cov c G Cc o) x dg'
   /\ (forall k i j, (k, i, j) <> (1, 3, 3)%nat -> dg k i j = dg' k i j)
   /\ dg 1%nat 3%nat 3%nat - dg' 1%nat 3%nat 3%nat =
      2 * (al_of c G o * sin (c2 x)) ^ 2 * (sch_rad c G o * (sg_of (al_of c G o) (c1 x) (c2 x) - 2 * c1 x ^ 2)
         / sg_of (al_of c G o) (c1 x) (c2 x) ^ 2) * sin (c2 x) ^ 2.
Proof.
  intros Hs H. unfold kerr_dgdx in H. assert (H' := H). apply bindR_Ok in H'. destruct H' as [y [Hy _]].
  apply bl_params_ok in Hy. rewrite bl_params_eq in H by exact Hy. cbn [bindR] in H. apply finite_if_inv in H. destruct H as [-> H].
  inversion_clear H as [|? ? H1 H2]. inversion_clear H2 as [|? ? H3 _].
  eexists. split; [apply kerr_gradient; repeat split; try assumption; apply Hy|]. split.
  - intros k i j N. unfold kerr_dg_true, set3 at 1.
    destruct (Nat.eqb_spec 1 k) as [<-|]; [|reflexivity]. destruct (Nat.eqb_spec 3 i) as [<-|]; [|reflexivity].
    destruct (Nat.eqb_spec 3 j) as [<-|]; [|reflexivity]. congruence.
  - cbv [kerr_dg_true kerr_133 kerr_dg set3 set3s zeros3 Nat.eqb andb]. field. assumption.
Qed.
