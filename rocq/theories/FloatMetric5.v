(** C115: metric_covariant, metric_contravariant, christoffels, f_vec and the electromagnetic tensor in floating point, against the exact model. *)
From Coq Require Import String Reals List ZArith Lra Lia Bool.
From Coquelicot Require Import Coquelicot.
From Verif Require Import Base Calc DualModel DualSpec DualProofs DualDiff GeoUtilsModel GeoUtilsSpec GeoUtilsProofs CoordModel CoordProofs2 ConvModel ConvProofs FantasyModel FantasyHam ProgCont FantasyOrder
  MetricModel MetricSpec MetricProofs MetricProofs2 MetricProofs3 MetricProofs4 FloatModel FloatTrack FloatRK.
From Verif Require Import FloatMetricModel FloatMetric FloatMetric2 FloatMetric3 FloatMetric4.
Import ListNotations.
Open Scope R_scope.

(** *** the exact model in terms of the programs *)
Definition xz (z : nat -> R) : V4 := mkQ4 (z 1%nat) (z 2%nat) (z 3%nat) (z 4%nat).
Lemma np_inv_inv4 g gc : np_inv g = Ok gc -> det4 g <> 0 /\ gc = inv4 g.
Proof. unfold np_inv. destruct (Req_EM_T (det4 g) 0) as [E|E]; [discriminate|]. intros H. apply Ok_inj in H. split; [exact E|]. symmetry. exact H. Qed.
Section Exact.
Variables (c G Cc : R) (o : mobj).
Notation sgz := (sgv c G o).
Notation dlz := (dlv c G Cc o).
Notation gK := (gM c G Cc o (kerrCovE c G o)).
Notation gN := (gM c G Cc o (knCovE c G o)).
Definition okz (z : nat -> R) : Prop := mo_sys o = BL /\ valid_spin o /\ sgz z <> 0 /\ dlz z <> 0.
Lemma dom_okz z : bl_dom c G o (xz z) <-> okz z.
Proof. unfold bl_dom, okz. rewrite sgv_eq, dlv_eq. tauto. Qed.
Lemma kerr_cov_z z : okz z -> kerr_cov c G Cc o (xz z) = Ok (gK z).
Proof. intros H. rewrite kerr_cov_eq by (apply dom_okz; exact H). rewrite kerr_gM, sgv_eq, dlv_eq. reflexivity. Qed.
Lemma kn_cov_z z : okz z -> MetricModel.kn_cov c G Cc o (xz z) = Ok (gN z).
Proof. intros H. rewrite kn_cov_eq by (apply dom_okz; exact H). rewrite kn_gM, sgv_eq, dlv_eq. reflexivity. Qed.
Lemma kerr_cov_inv z g : kerr_cov c G Cc o (xz z) = Ok g -> okz z /\ g = gK z.
Proof. intros H. assert (D := proj1 (dom_okz z) (kerr_cov_dom _ _ _ _ _ _ H)). split; [exact D|]. rewrite kerr_cov_z in H by exact D. apply Ok_inj in H. symmetry. exact H. Qed.
Lemma kn_cov_inv z g : MetricModel.kn_cov c G Cc o (xz z) = Ok g -> okz z /\ g = gN z.
Proof. intros H. assert (D := proj1 (dom_okz z) (kn_cov_dom _ _ _ _ _ _ H)). split; [exact D|]. rewrite kn_cov_z in H by exact D. apply Ok_inj in H. symmetry. exact H. Qed.
Lemma kerr_contra_inv z gi : metric_contravariant (kerr_cov c G Cc o) (xz z) = Ok gi -> okz z /\ det4 (gK z) <> 0 /\ gi = inv4 (gK z).
Proof. intros H. apply bindR_Ok in H. destruct H as (g & H1 & H2). destruct (kerr_cov_inv z g H1) as [D ->]. split; [exact D|]. apply np_inv_inv4. exact H2. Qed.
Lemma kn_contra_inv z gi : metric_contravariant (MetricModel.kn_cov c G Cc o) (xz z) = Ok gi -> okz z /\ det4 (gN z) <> 0 /\ gi = inv4 (gN z).
Proof. intros H. apply bindR_Ok in H. destruct H as (g & H1 & H2). destruct (kn_cov_inv z g H1) as [D ->]. split; [exact D|]. apply np_inv_inv4. exact H2. Qed.
Lemma kerr_ch_inv z ch : kerr_christoffels c G Cc o (xz z) = Ok ch -> okz z /\ det4 (gK z) <> 0 /\
  forall i j k, (i < 4)%nat -> (j < 4)%nat -> (k < 4)%nat -> meaning (E2 c G Cc o (kerrCovE c G o) z) (blChE (kerrDgE c G o) i j k) = ch i j k.
Proof.
  unfold kerr_christoffels. destruct (mo_sys o) eqn:Sy; try discriminate. intros H. apply bindR_Ok in H. destruct H as (gi & H1 & H2). destruct (kerr_contra_inv z gi H1) as (D & D3 & ->).
  apply bindR_Ok in H2. destruct H2 as (dg & H2 & H3). apply Ok_inj in H3. subst ch. split; [exact D|]. split; [exact D3|]. unfold kerr_dgdx in H2. rewrite bl_params_eq in H2 by apply D. cbn [bindR] in H2. apply finite_if_inv in H2. destruct H2 as [-> _].
  apply bl_chE; [|apply E2_inv]. intros k i j Hk Hi Hj. rewrite (kerr_dgE c G Cc o _ z) by (try assumption; apply holds_E2). rewrite sgv_eq, dlv_eq. reflexivity.
Qed.
Lemma kn_ch_inv z ch : kn_christoffels c G Cc o (xz z) = Ok ch -> okz z /\ det4 (gN z) <> 0 /\
  forall i j k, (i < 4)%nat -> (j < 4)%nat -> (k < 4)%nat -> meaning (E2 c G Cc o (knCovE c G o) z) (blChE (knDgE c G o) i j k) = ch i j k.
Proof.
  unfold kn_christoffels. destruct (mo_sys o) eqn:Sy; try discriminate. intros H. apply bindR_Ok in H. destruct H as (gi & H1 & H2). destruct (kn_contra_inv z gi H1) as (D & D3 & ->).
  apply bindR_Ok in H2. destruct H2 as (dg & H2 & H3). apply Ok_inj in H3. subst ch. split; [exact D|]. split; [exact D3|]. unfold kn_dgdx in H2. rewrite kn_params_eq in H2 by apply D. cbn [bindR] in H2. apply finite_if_inv in H2. destruct H2 as [-> _].
  apply bl_chE; [|apply E2_inv]. intros k i j Hk Hi Hj. rewrite (kn_dgE c G Cc o _ z) by (try assumption; apply holds_E2). rewrite sgv_eq, dlv_eq. reflexivity.
Qed.
Lemma E2_vel cov z i : (i < 4)%nat -> E2 c G Cc o cov z (5 + i)%nat = q4nth (velz z) i.
Proof. intros Hi. nat4' i Hi; reflexivity. Qed.
Lemma kerr_f_inv z w a : kerr_f_vec c G Cc o (xz z) (velz z) = Ok (w, a) -> okz z /\ det4 (gK z) <> 0 /\ w = velz z /\ a = blX c G Cc o (kerrCovE c G o) (kerrDgE c G o) z.
Proof.
  unfold kerr_f_vec. destruct (mo_sys o) eqn:Sy; try discriminate. intros H. apply bindR_Ok in H. destruct H as (ch & H1 & H2). destruct (kerr_ch_inv z ch H1) as (D & D3 & E). apply Ok_inj in H2. injection H2 as <- <-.
  split; [exact D|]. split; [exact D3|]. split; [reflexivity|]. symmetry. apply bl_accE; [exact E|]. apply E2_vel.
Qed.
Lemma em_FM z rQ : okz z -> r_Q c G Cc o = Ok rQ -> FM c G Cc o z = em_F (al_of c G o) rQ (sgz z) (z 2%nat) (z 3%nat).
Proof.
  intros D H. assert (rQ = rQv c G Cc o) as ->.
  { unfold r_Q, np_sqrt in H. destruct (Rle_dec 0 _) as [L|L] in H; [|discriminate]. apply Ok_inj in H. subst rQ. reflexivity. }
  unfold FM, em_F. reflexivity.
Qed.
Lemma em_inv z f : em_tensor_covariant c G Cc o (xz z) = Ok f -> okz z -> f = FM c G Cc o z.
Proof.
  unfold em_tensor_covariant. intros H D. rewrite bm_alpha_valid in H by apply D. cbn [bindR] in H. apply bindR_Ok in H. destruct H as (rQ & H1 & H2). apply bindR_Ok in H2. destruct H2 as (rh & H2 & H3). apply finite_if_inv in H3. destruct H3 as [-> _].
  rewrite (em_FM z rQ D H1). f_equal. unfold rho in H2. apply bindR_Ok in H2. destruct H2 as (s & H2 & H3). unfold sigma in H2. rewrite bm_alpha_valid in H2 by apply D. cbn [bindR prim] in H2. apply Ok_inj in H2.
  unfold np_sqrt in H3. destruct (Rle_dec 0 s) as [L|L] in H3; [|discriminate]. apply Ok_inj in H3. subst rh s. rewrite pow2_sqrt by lra. reflexivity.
Qed.
Lemma em_contra_inv z f : em_tensor_contravariant c G Cc o (xz z) = Ok f -> okz z /\ det4 (gN z) <> 0 /\ f = FcM c G Cc o z.
Proof.
  unfold em_tensor_contravariant. intros H. apply bindR_Ok in H. destruct H as (f0 & H1 & H2). apply bindR_Ok in H2. destruct H2 as (gi & H2 & H3). destruct (kn_contra_inv z gi H2) as (D & D3 & ->). apply Ok_inj in H3. subst f.
  rewrite (em_inv z f0 H1 D). split; [exact D|]. split; [exact D3|]. reflexivity.
Qed.
Lemma kn_f_inv z w a : kn_f_vec c G Cc o (xz z) (velz z) = Ok (w, a) -> okz z /\ det4 (gN z) <> 0 /\ w = velz z /\ a = knX c G Cc o z.
Proof.
  unfold kn_f_vec. destruct (mo_sys o) eqn:Sy; try discriminate. intros H. apply bindR_Ok in H. destruct H as (ch & H1 & H). destruct (kn_ch_inv z ch H1) as (D & D3 & E). apply bindR_Ok in H. destruct H as (f & H2 & H). destruct (em_contra_inv z f H2) as (_ & _ & ->).
  apply bindR_Ok in H. destruct H as (g & H3 & H). destruct (kn_cov_inv z g H3) as (_ & ->). apply Ok_inj in H. injection H as <- <-. split; [exact D|]. split; [exact D3|]. split; [reflexivity|].
  unfold knX, vm. f_equal. symmetry. apply bl_accE; [exact E|]. apply E2_vel.
Qed.
(** Schwarzschild *)
Lemma sch_cov_inv z g : MetricModel.sch_cov c G o (xz z) = Ok g -> mo_sys o = Sph /\ z 2%nat <> 0 /\ 1 - sch_rad c G o / z 2%nat <> 0 /\ g = mtab (fun a b => meaning z (schCovE c G o a b)).
Proof.
  unfold MetricModel.sch_cov. destruct (mo_sys o); try discriminate. intros H. apply finite_if_inv in H. destruct H as [-> H]. inversion_clear H. inversion_clear H1. split; [reflexivity|]. split; [assumption|]. split; [assumption|]. symmetry. apply sch_covE.
Qed.
Lemma sch_ch_inv z ch : sch_christoffels c G o (xz z) = Ok ch -> mo_sys o = Sph /\ schD c G o z /\
  forall i j k, (i < 4)%nat -> (j < 4)%nat -> (k < 4)%nat -> meaning (S1 z) (schChE c G o i j k) = ch i j k.
Proof.
  unfold sch_christoffels. destruct (mo_sys o); try discriminate. intros H. apply finite_if_inv in H. destruct H as [-> H]. inversion_clear H. inversion_clear H1. inversion_clear H2. split; [reflexivity|]. split; [split; [|split]; assumption|].
  intros i j k Hi Hj Hk. apply sch_chE; try assumption. reflexivity.
Qed.
Lemma sch_f_inv z w a : sch_f_vec c G o (xz z) (velz z) = Ok (w, a) -> mo_sys o = Sph /\ schD c G o z /\ w = velz z /\ a = schX c G o z.
Proof.
  unfold sch_f_vec. destruct (mo_sys o) eqn:Sy; try discriminate. intros H. apply bindR_Ok in H. destruct H as (ch & H1 & H2). destruct (sch_ch_inv z ch H1) as (_ & D & E). apply Ok_inj in H2. injection H2 as <- <-.
  split; [reflexivity|]. split; [exact D|]. split; [reflexivity|]. symmetry. apply sch_accE; [exact E|]. intros i Hi. nat4' i Hi; reflexivity.
Qed.
End Exact.
