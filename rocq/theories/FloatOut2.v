(** Uniform error bounds for the conversions back to Cartesian coordinates on bounded sets. *)
From Coq Require Import String Reals List ZArith Lra Lia Bool.
From Coquelicot Require Import Coquelicot.
From Verif Require Import Base Calc DualModel GeoUtilsModel CoordModel CoordProofs CoordProofs2 ConvModel GeodesicModel FloatModel FloatTrack FloatGlobal FloatCoordModel FloatCoord FloatCoordMain.
From Verif Require Import FloatOut.
Import ListNotations.
Open Scope R_scope.

Record zin := mkzin { z_d : R; z_B : arith2; z_p : V4; z_v : V3; z_al : R; z_p' : V4; z_v' : V3; z_al' : R }.
Definition within_box (M : R) (p : V4) (v : V3) (al : R) : Prop := close4 M p (mkQ4 0 0 0 0) /\ close3 M v (mk3 0 0 0) /\ close M al 0.
Definition inZ (M m r : R) (j : zin) : Prop :=
  0 <= z_d j < r /\ accurate (z_d j) (b_ar (z_B j)) /\ close4 (z_d j) (z_p j) (z_p' j) /\ close3 (z_d j) (z_v j) (z_v' j) /\ close (z_d j) (z_al j) (z_al' j) /\
  within_box M (z_p' j) (z_v' j) (z_al' j) /\ m <= c1 (z_p' j) ^ 2 + z_al' j ^ 2.
Definition FZ (M m : R) (P : zin -> Prop) : Prop := exists r, 0 < r /\ forall j, inZ M m r j -> P j.
Lemma inZ_le M m r r' j : r <= r' -> inZ M m r j -> inZ M m r' j.
Proof. intros H (H1 & H2). split; [lra|exact H2]. Qed.
Global Instance FZ_filter M m : Filter (FZ M m).
Proof.
  split.
  - exists 1. split; [lra|]. auto.
  - intros P Q (r & Hr & H) (r' & Hr' & H'). exists (Rmin r r'). split; [apply Rmin_pos; assumption|]. intros j Hj. split; [apply H|apply H']; (eapply inZ_le; [|exact Hj]); [apply Rmin_l|apply Rmin_r].
  - intros P Q HPQ (r & Hr & H). exists r. split; [exact Hr|]. intros j Hj. apply HPQ, H, Hj.
Qed.
Section Use.
Variables M m : R.
Notation F := (FZ M m).
Lemma FZ_of (P : zin -> Prop) : (forall j, inZ M m 1 j -> P j) -> F P.
Proof. intros H. exists 1. split; [lra|exact H]. Qed.
Lemma FZ_d0 : F (fun j => 0 <= z_d j). Proof. apply FZ_of. intros j H. apply H. Qed.
Lemma FZ_d : filterlim z_d F (locally 0).
Proof.
  intros P (eps & HP). exists eps. split; [apply cond_pos|]. intros j ((H1 & H2) & _). apply HP. unfold ball. cbn. unfold AbsRing_ball, abs, minus, plus, opp. cbn. rewrite Ropp_0, Rplus_0_r, Rabs_pos_eq; assumption.
Qed.
Lemma FZ_A : F (fun j => accurate (z_d j) (b_ar (z_B j))). Proof. apply FZ_of. intros j H. apply H. Qed.
Lemma box_in v x : F (fun j => close (z_d j) (v j) (x j)) -> F (fun j => close M (x j) 0) -> bt F z_d v x.
Proof. intros H1 H2. apply (bt_bound F z_d v x M); [exact H1|]. revert H2. apply filter_imp. intros j. unfold close. rewrite Rminus_0_r. exact (fun H => H). Qed.
Lemma FZ_p : bt4 F z_d z_p z_p'.
Proof.
  assert (H1 : F (fun j => close4 (z_d j) (z_p j) (z_p' j))) by (apply FZ_of; intros j H; apply H). assert (H2 : F (fun j => close4 M (z_p' j) (mkQ4 0 0 0 0))) by (apply FZ_of; intros j H; apply H).
  unfold bt4. repeat split; (apply box_in; [revert H1|revert H2]; apply filter_imp; intros j (Q0 & Q1 & Q2 & Q3); assumption).
Qed.
Lemma FZ_v : bt3 F z_d z_v z_v'.
Proof.
  assert (H1 : F (fun j => close3 (z_d j) (z_v j) (z_v' j))) by (apply FZ_of; intros j H; apply H). assert (H2 : F (fun j => close3 M (z_v' j) (mk3 0 0 0))) by (apply FZ_of; intros j H; apply H).
  unfold bt3. repeat split; (apply box_in; [revert H1|revert H2]; apply filter_imp; intros j (Q0 & Q1 & Q2); assumption).
Qed.
Lemma FZ_al : bt F z_d z_al z_al'.
Proof. apply box_in; apply FZ_of; intros j H; apply H. Qed.
Lemma FZ_m : F (fun j => m <= c1 (z_p' j) ^ 2 + z_al' j ^ 2). Proof. apply FZ_of. intros j H. apply H. Qed.
Lemma bt_use v x : bt F z_d v x -> exists C, 0 <= C /\ F (fun j => close (C * z_d j) (v j) (x j)).
Proof. intros H. apply (bt_pos F z_d FZ_d0 FZ_d) in H. destruct H as (C & N & PC & _ & H). exists C. split; [exact PC|]. revert H. apply filter_imp. intros j H. apply H. Qed.
Lemma bt4_use v x : bt4 F z_d v x -> exists C, 0 <= C /\ F (fun j => close4 (C * z_d j) (v j) (x j)).
Proof.
  intros (H0 & H1 & H2 & H3). apply bt_use in H0. apply bt_use in H1. apply bt_use in H2. apply bt_use in H3. destruct H0 as (a & Pa & H0). destruct H1 as (b & Pb & H1). destruct H2 as (c & Pc & H2). destruct H3 as (e & Pe & H3).
  exists (a + b + c + e). split; [lra|]. generalize (filter_and _ _ (filter_and _ _ H0 H1) (filter_and _ _ (filter_and _ _ H2 H3) FZ_d0)). apply filter_imp. intros j ((Q0 & Q1) & (Q2 & Q3) & Q).
  assert (0 <= a * z_d j) by (apply Rmult_le_pos; assumption). assert (0 <= b * z_d j) by (apply Rmult_le_pos; assumption). assert (0 <= c * z_d j) by (apply Rmult_le_pos; assumption). assert (0 <= e * z_d j) by (apply Rmult_le_pos; assumption).
  unfold close4, close in *. rewrite !Rmult_plus_distr_r. repeat split; lra.
Qed.
Lemma bt3_use v x : bt3 F z_d v x -> exists C, 0 <= C /\ F (fun j => close3 (C * z_d j) (v j) (x j)).
Proof.
  intros (H0 & H1 & H2). apply bt_use in H0. apply bt_use in H1. apply bt_use in H2. destruct H0 as (a & Pa & H0). destruct H1 as (b & Pb & H1). destruct H2 as (c & Pc & H2).
  exists (a + b + c). split; [lra|]. generalize (filter_and _ _ (filter_and _ _ H0 H1) (filter_and _ _ H2 FZ_d0)). apply filter_imp. intros j ((Q0 & Q1) & Q2 & Q).
  assert (0 <= a * z_d j) by (apply Rmult_le_pos; assumption). assert (0 <= b * z_d j) by (apply Rmult_le_pos; assumption). assert (0 <= c * z_d j) by (apply Rmult_le_pos; assumption).
  unfold close3, close in *. rewrite !Rmult_plus_distr_r. repeat split; lra.
Qed.
End Use.

(** geodesic.py:241-253 in floating point *)
Lemma to_cartesian_uniform M : exists r C, 0 < r /\ 0 <= C /\ forall d A q q', 0 <= d < r -> accurate d A -> close4 d q q' -> close4 M q' (mkQ4 0 0 0 0) ->
  exists x, to_cartesianA A q = Ok x /\ close4 (C * d) x (to_cartesian q').
Proof.
  destruct (b_to_cartesian (FZ M 0) z_d (fun j => b_ar (z_B j)) (FZ_d0 M 0) (FZ_d M 0) (FZ_A M 0) z_p z_p' (FZ_p M 0)) as (w & E & Hw). unfold evok in E.
  apply bt4_use in Hw. destruct Hw as (C & PC & Hw). destruct (filter_and _ _ E Hw) as (r & Hr & H). exists r, C. split; [exact Hr|]. split; [exact PC|]. intros d A q q' Hd HA Hq HM.
  assert (PM : 0 <= M) by (destruct HM as (HM & _); eapply Rle_trans; [apply Rabs_pos|exact HM]).
  destruct (H (mkzin d (mkarith2 A (fun _ _ => Err ValueError) (fun _ _ => Err ValueError) (fun _ => Err ValueError)) q (mk3 0 0 0) 0 q' (mk3 0 0 0) 0)) as [H1 H2].
  - assert (Z : forall e, 0 <= e -> close e 0 0) by (intros e He; unfold close; rewrite Rminus_0_r, Rabs_R0; exact He). assert (D0 : 0 <= d) by apply Hd.
    unfold inZ, within_box. cbn [z_d z_B z_p z_v z_al z_p' z_v' z_al' b_ar]. split; [exact Hd|]. split; [exact HA|]. split; [exact Hq|]. split; [split; [|split]; apply Z; exact D0|]. split; [apply Z; exact D0|].
    split; [split; [exact HM|split; [split; [|split]; apply Z; exact PM|apply Z; exact PM]]|]. generalize (pow2_ge_0 (c1 q')). lra.
  - cbn in H1, H2. exists (w (mkzin d (mkarith2 A (fun _ _ => Err ValueError) (fun _ _ => Err ValueError) (fun _ => Err ValueError)) q (mk3 0 0 0) 0 q' (mk3 0 0 0) 0)). split; [exact H1|exact H2].
Qed.
Definition cart_sph (p : V4) (v : V3) (_ : R) : V4 * V3 := (sph_to_cart (c0 p) (c1 p) (c2 p) (c3 p), sph_to_cart_vel (c1 p) (c2 p) (c3 p) (v1 v) (v2 v) (v3 v)).
Definition cart_bl (p : V4) (v : V3) (al : R) : V4 * V3 := (bl_to_cart (c0 p) (c1 p) (c2 p) (c3 p) al, bl_vel (c1 p) (c2 p) (c3 p) al (v1 v) (v2 v) (v3 v)).
Definition uniform (from : arith2 -> V4 -> V3 -> R -> Res (V4 * V3)) (to : V4 -> V3 -> R -> V4 * V3) (M m : R) : Prop :=
  exists r C, 0 < r /\ 0 <= C /\ forall d B p v al p' v' al', 0 <= d < r -> accurate d (b_ar B) -> close4 d p p' -> close3 d v v' -> close d al al' -> within_box M p' v' al' -> m <= c1 p' ^ 2 + al' ^ 2 ->
  exists x w, from B p v al = Ok (x, w) /\ close4 (C * d) x (fst (to p' v' al')) /\ close3 (C * d) w (snd (to p' v' al')).
Lemma sph_uniform M m : uniform from_sph cart_sph M m.
Proof.
  destruct (b_sph_cart (FZ M m) z_d z_B (FZ_d0 M m) (FZ_d M m) (FZ_A M m) z_p z_p' z_v z_v' z_al (FZ_p M m) (FZ_v M m)) as (w & E & H1 & H2). unfold evok in E.
  apply bt4_use in H1. apply bt3_use in H2. destruct H1 as (C1 & P1 & H1). destruct H2 as (C2 & P2 & H2). destruct (filter_and _ _ E (filter_and _ _ H1 H2)) as (r & Hr & H).
  exists r, (C1 + C2). split; [exact Hr|]. split; [lra|]. intros d B p v al p' v' al' Hd HB Hp Hv Ha HM Hm.
  destruct (H (mkzin d B p v al p' v' al')) as (Q1 & Q2 & Q3). { unfold inZ. cbn. tauto. } cbn in Q1, Q2, Q3. set (j := mkzin d B p v al p' v' al') in *. exists (fst (w j)), (snd (w j)). split; [rewrite Q1; destruct (w j); reflexivity|].
  assert (0 <= C1 * d) by (apply Rmult_le_pos; lra). assert (0 <= C2 * d) by (apply Rmult_le_pos; lra). split; [eapply close4_le; [|exact Q2]|eapply close3_le; [|exact Q3]]; lra.
Qed.
Lemma bl_uniform M m : 0 < m -> uniform from_bl cart_bl M m.
Proof.
  intros PM. destruct (b_bl_cart (FZ M m) z_d z_B (FZ_d0 M m) (FZ_d M m) (FZ_A M m) z_p z_p' z_v z_v' z_al z_al' (FZ_p M m) (FZ_v M m) (FZ_al M m) m PM (FZ_m M m)) as (w & E & H1 & y & H2 & H3). unfold evok in E.
  apply bt4_use in H1. apply bt3_use in H2. destruct H1 as (C1 & P1 & H1). destruct H2 as (C2 & P2 & H2). destruct (filter_and _ _ E (filter_and _ _ H1 (filter_and _ _ H2 H3))) as (r & Hr & H).
  exists r, (C1 + C2). split; [exact Hr|]. split; [lra|]. intros d B p v al p' v' al' Hd HB Hp Hv Ha HM Hm.
  destruct (H (mkzin d B p v al p' v' al')) as (Q1 & Q2 & Q3 & Q4). { unfold inZ. cbn. tauto. } cbn in Q1, Q2, Q3, Q4. set (j := mkzin d B p v al p' v' al') in *. exists (fst (w j)), (snd (w j)). split; [rewrite Q1; destruct (w j); reflexivity|].
  assert (0 <= C1 * d) by (apply Rmult_le_pos; lra). assert (0 <= C2 * d) by (apply Rmult_le_pos; lra). rewrite Q4 in Q3. split; [eapply close4_le; [|exact Q2]|eapply close3_le; [|exact Q3]]; lra.
Qed.
