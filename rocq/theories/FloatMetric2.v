(** The programs of FloatMetricModel.v mean the exact model of MetricModel.v. *)
From Coq Require Import String Reals List ZArith Lra Lia Bool.
From Coquelicot Require Import Coquelicot.
From Verif Require Import Base Calc DualModel DualSpec DualProofs DualDiff GeoUtilsModel GeoUtilsSpec GeoUtilsProofs CoordModel CoordProofs2 ConvModel ConvProofs FantasyModel FantasyHam ProgCont FantasyOrder
  MetricModel MetricSpec MetricProofs MetricProofs2 MetricProofs3 MetricProofs4 FloatModel FloatTrack FloatRK.
From Verif Require Import FloatMetricModel FloatMetric.
Import ListNotations.
Open Scope R_scope.
Ltac nat4' i Hi := destruct i as [|[|[|[|i]]]]; [| | | |exfalso; lia].

Section Exact.
Variables (c G Cc : R) (o : mobj).
Hypothesis Hc : c <> 0.
Let al := al_of c G o.
Let rs := sch_rad c G o.
Notation Z1 := (E1 c G Cc o).
Lemma sgv_eq z : sgv c G o z = sg_of al (z 2%nat) (z 3%nat).
Proof. reflexivity. Qed.
Lemma dlv_eq z : dlv c G Cc o z = dl_of rs al (z 2%nat).
Proof. unfold dlv, deltaE. cbn [meaning]. change (z 2%nat ^ 2 - 2 * q_val (mo_M o) * G / c ^ 2 * z 2%nat + al ^ 2 + 0 ^ 2 * G * Cc / c ^ 4 = dl_of rs al (z 2%nat)). unfold dl_of, rs, sch_rad, schwarzschild_radius. cbn [prim]. unfold Rdiv. ring. Qed.
(** an environment holding the intermediate values *)
Definition holds (w z : nat -> R) : Prop := w 2%nat = z 2%nat /\ w 3%nat = z 3%nat /\ w 9%nat = sgv c G o z /\ w 10%nat = dlv c G Cc o z.
Lemma holds_E1 z : holds (Z1 z) z.
Proof. repeat split. Qed.
Lemma holds_E2 cov z : holds (E2 c G Cc o cov z) z.
Proof. repeat split. Qed.
Lemma kerr_gM z : gM c G Cc o (kerrCovE c G o) z = kerr_g c rs al (sgv c G o z) (dlv c G Cc o z) (z 2%nat) (z 3%nat).
Proof. reflexivity. Qed.
Lemma kn_gM z : gM c G Cc o (knCovE c G o) z = MetricModel.kn_g c al (sgv c G o z) (dlv c G Cc o z) (z 2%nat) (z 3%nat).
Proof. reflexivity. Qed.
Lemma kerr_dgE w z k i j : holds w z -> (k < 4)%nat -> (i < 4)%nat -> (j < 4)%nat ->
  meaning w (kerrDgE c G o k i j) = kerr_dg c rs al (sgv c G o z) (dlv c G Cc o z) (z 2%nat) (z 3%nat) k i j.
Proof.
  intros (H1 & H2 & H3 & H4) Hk Hi Hj. rewrite <- H1, <- H2, <- H3, <- H4. clear H1 H2 H3 H4.
  nat4' k Hk; (nat4' i Hi); (nat4' j Hj); reflexivity.
Qed.
Lemma kn_dgE w z k i j : holds w z -> (k < 4)%nat -> (i < 4)%nat -> (j < 4)%nat ->
  meaning w (knDgE c G o k i j) = kn_dg c rs al (sgv c G o z) (dlv c G Cc o z) (z 2%nat) (z 3%nat) k i j.
Proof.
  intros (H1 & H2 & H3 & H4) Hk Hi Hj. rewrite <- H1, <- H2, <- H3, <- H4. clear H1 H2 H3 H4.
  nat4' k Hk; (nat4' i Hi); (nat4' j Hj); reflexivity.
Qed.
End Exact.
(** Christoffel symbols from dg and the inverse *)
Definition holds_inv (w : nat -> R) (gi : M4) : Prop := forall i j, (i < 4)%nat -> (j < 4)%nat -> w (11 + (4 * i + j))%nat = mnth gi i j.
Lemma E2_inv c G Cc o cov z : holds_inv (E2 c G Cc o cov z) (inv4 (gM c G Cc o cov z)).
Proof. intros i j Hi Hj. nat4' i Hi; (nat4' j Hj); reflexivity. Qed.
Lemma bl_chE dgE dg w gi : (forall k i j, (k < 4)%nat -> (i < 4)%nat -> (j < 4)%nat -> meaning w (dgE k i j) = dg k i j) -> holds_inv w gi ->
  forall i j k, (i < 4)%nat -> (j < 4)%nat -> (k < 4)%nat -> meaning w (blChE dgE i j k) = bl_ch gi dg i j k.
Proof.
  intros Hd Hi.
  assert (D : forall k i j, (k < 4)%nat -> (i < 4)%nat -> (j < 4)%nat -> dg k i j = meaning w (dgE k i j)) by (intros; symmetry; apply Hd; assumption).
  assert (I : forall i j, (i < 4)%nat -> (j < 4)%nat -> mnth gi i j = w (11 + (4 * i + j))%nat) by (intros; symmetry; apply Hi; assumption).
  intros i j k Li Lj Lk. nat4' i Li; (nat4' j Lj); (nat4' k Lk);
  cbv [blChE bl_ch fold_left slice skipn firstn nonzero_list set3sE set3s set3E set3 Nat.eqb andb zeros3]; cbn [meaning]; rewrite ?D, ?I by lia; reflexivity.
Qed.
Lemma bl_accE chE ch w v : (forall i j k, (i < 4)%nat -> (j < 4)%nat -> (k < 4)%nat -> meaning w (chE i j k) = ch i j k) -> (forall i, (i < 4)%nat -> w (5 + i)%nat = q4nth v i) ->
  q4tab (fun i => meaning w (blAccE chE i)) = bl_accel ch v.
Proof.
  intros H Hv. assert (V0 := Hv 0%nat ltac:(lia)). assert (V1 := Hv 1%nat ltac:(lia)). assert (V2 := Hv 2%nat ltac:(lia)). assert (V3 := Hv 3%nat ltac:(lia)). cbn in V0, V1, V2, V3.
  unfold q4tab, bl_accel, blAccE. cbn [meaning]. rewrite V0, V1, V2, V3. rewrite !H by lia. reflexivity.
Qed.
(** the programs are defined where the exact model has finite values *)
Section Def.
Variables (c G Cc : R) (o : mobj).
Hypothesis Hc : c <> 0.
Lemma kerr_cov_def w i j : w 9%nat <> 0 -> w 10%nat <> 0 -> (i < 4)%nat -> (j < 4)%nat -> below 11 (kerrCovE c G o i j) = true /\ defined_at w (kerrCovE c G o i j).
Proof.
  intros H1 H2 Hi Hj. assert (P := c2ne c Hc). split; [nat4' i Hi; (nat4' j Hj); reflexivity|].
  nat4' i Hi; (nat4' j Hj); unfold kerrCovE, schRadE, alphaE; cbn [defined_at meaning]; repeat match goal with |- _ /\ _ => split end; try exact I; try (left; discriminate); first [exact P|exact H1|exact H2].
Qed.
Lemma kn_cov_def w i j : w 9%nat <> 0 -> w 10%nat <> 0 -> (i < 4)%nat -> (j < 4)%nat -> below 11 (knCovE c G o i j) = true /\ defined_at w (knCovE c G o i j).
Proof.
  intros H1 H2 Hi Hj. assert (P := c2ne c Hc). split; [nat4' i Hi; (nat4' j Hj); reflexivity|].
  nat4' i Hi; (nat4' j Hj); unfold knCovE, schRadE, alphaE; cbn [defined_at meaning]; repeat match goal with |- _ /\ _ => split end; try exact I; try (left; discriminate); first [exact P|exact H1|exact H2].
Qed.
Lemma kerr_dg_def w k i j : w 9%nat <> 0 -> w 10%nat <> 0 -> (k < 4)%nat -> (i < 4)%nat -> (j < 4)%nat -> below 11 (kerrDgE c G o k i j) = true /\ defined_at w (kerrDgE c G o k i j).
Proof.
  intros H1 H2 Hk Hi Hj. assert (P := c2ne c Hc). assert (Q : powerRZ (w 9%nat) 2 <> 0) by (apply powerRZ_NOR; exact H1). split; [nat4' k Hk; (nat4' i Hi); (nat4' j Hj); reflexivity|].
  nat4' k Hk; (nat4' i Hi); (nat4' j Hj); unfold kerrDgE, schRadE, alphaE; cbn [defined_at meaning]; repeat match goal with |- _ /\ _ => split end; try exact I; try (left; discriminate); first [exact P|exact H1|exact H2|exact Q].
Qed.
Lemma kn_dg_def w k i j : w 9%nat <> 0 -> w 10%nat <> 0 -> (k < 4)%nat -> (i < 4)%nat -> (j < 4)%nat -> below 11 (knDgE c G o k i j) = true /\ defined_at w (knDgE c G o k i j).
Proof.
  intros H1 H2 Hk Hi Hj. assert (P := c2ne c Hc). assert (Q : powerRZ (w 9%nat) 2 <> 0) by (apply powerRZ_NOR; exact H1). assert (Q2 : powerRZ (w 10%nat) 2 <> 0) by (apply powerRZ_NOR; exact H2). split; [nat4' k Hk; (nat4' i Hi); (nat4' j Hj); reflexivity|].
  nat4' k Hk; (nat4' i Hi); (nat4' j Hj); unfold knDgE, schRadE, alphaE; cbn [defined_at meaning]; repeat match goal with |- _ /\ _ => split end; try exact I; try (left; discriminate); first [exact P|exact H1|exact H2|exact Q|exact Q2].
Qed.
End Def.
Lemma below_mono m n p : (m <= n)%nat -> below m p = true -> below n p = true.
Proof.
  intros L. induction p; cbn [below]; intros H; auto; try (apply andb_true_iff in H; destruct H; apply andb_true_iff; split; auto). apply Nat.ltb_lt in H. apply Nat.ltb_lt. lia.
Qed.
Lemma bl_ch_def dgE w : (forall k i j, (k < 4)%nat -> (i < 4)%nat -> (j < 4)%nat -> below 11 (dgE k i j) = true /\ defined_at w (dgE k i j)) ->
  forall i j k, (i < 4)%nat -> (j < 4)%nat -> (k < 4)%nat -> below 27 (blChE dgE i j k) = true /\ defined_at w (blChE dgE i j k).
Proof.
  intros H. assert (B : forall k i j, (k < 4)%nat -> (i < 4)%nat -> (j < 4)%nat -> below 27 (dgE k i j) = true) by (intros; apply (below_mono 11); [lia|apply H; assumption]).
  assert (D : forall k i j, (k < 4)%nat -> (i < 4)%nat -> (j < 4)%nat -> defined_at w (dgE k i j)) by (intros; apply H; assumption). clear H.
  intros i j k Li Lj Lk. nat4' i Li; (nat4' j Lj); (nat4' k Lk);
  cbv [blChE fold_left slice skipn firstn nonzero_list set3sE set3E Nat.eqb andb]; cbn [defined_at below gcE]; (split; [repeat (apply andb_true_intro; split); first [reflexivity|apply B; lia]|repeat split; apply D; lia]).
Qed.
Lemma bl_acc_def chE w : (forall i j k, (i < 4)%nat -> (j < 4)%nat -> (k < 4)%nat -> below 27 (chE i j k) = true /\ defined_at w (chE i j k)) ->
  forall i, (i < 4)%nat -> below 27 (blAccE chE i) = true /\ defined_at w (blAccE chE i).
Proof.
  intros H. assert (B : forall k i j, (k < 4)%nat -> (i < 4)%nat -> (j < 4)%nat -> below 27 (chE k i j) = true) by (intros; apply H; assumption).
  assert (D : forall k i j, (k < 4)%nat -> (i < 4)%nat -> (j < 4)%nat -> defined_at w (chE k i j)) by (intros; apply H; assumption). clear H.
  intros i Li. nat4' i Li; unfold blAccE; cbn [defined_at below]; (split; [repeat (apply andb_true_intro; split); first [reflexivity|apply B; lia]|repeat split; apply D; lia]).
Qed.
