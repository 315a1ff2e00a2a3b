From Coq Require Import Reals List ZArith Lra Lia Bool.
From Coquelicot Require Import Coquelicot.
From Verif Require Import Base Calc GeoUtilsModel GeoUtilsProofs CoordModel CoordProofs2 ConvModel ConvProofs MetricModel MetricSpec MetricProofs MetricProofs2 MetricProofs3 MetricProofs4 MetricProofs5 MetricProofs6 MetricProofs7.
Import ListNotations.
Open Scope R_scope.

(** *** C42 refuted: a charged particle falling radially in a charged, non-rotating hole *)
Definition diag4 (a b d e : R) : M4 := mkQ4 (mkQ4 a 0 0 0) (mkQ4 0 b 0 0) (mkQ4 0 0 d 0) (mkQ4 0 0 0 e).
Lemma diag4_inv a b d e : a <> 0 -> b <> 0 -> d <> 0 -> e <> 0 -> is_inverse (diag4 a b d e) (diag4 (/ a) (/ b) (/ d) (/ e)).
Proof.
  intros Ha Hb Hd He. split; apply M4_eq; intros i j Hi Hj; rewrite mm_entry by assumption; unfold id4; rewrite mnth_tab by assumption;
  idx4 i Hi; (idx4 j Hj); cbv [diag4 sum4 mnth q4nth Nat.eqb]; cbn [c0 c1 c2 c3]; field; repeat split; assumption.
Qed.
Definition rad4 (k : R) : M4 := mkQ4 (mkQ4 0 k 0 0) (mkQ4 (- k) 0 0 0) (mkQ4 0 0 0 0) (mkQ4 0 0 0 0).
Lemma em_F_wit : em_F 0 1 16 4 (PI / 2) = rad4 (/ 16).
Proof. unfold em_F, rad4. f_equal; f_equal; field. Qed.
Lemma mm_rad a b d e k : mm (mm (diag4 a b d e) (rad4 k)) (diag4 a b d e) = rad4 (a * b * k).
Proof.
  apply M4_eq. intros i j Hi Hj. rewrite mm_entry by assumption. unfold sum4. rewrite !mm_entry by (assumption || lia). unfold sum4.
  idx4 i Hi; (idx4 j Hj); cbv [diag4 rad4 mnth q4nth]; cbn [c0 c1 c2 c3]; ring.
Qed.
Lemma inner_rad a b d e k : inner (diag4 a b d e) (mkQ4 1 1 0 0) (vm (mv (rad4 k) (mkQ4 1 1 0 0)) (diag4 a b d e)) = k * (a ^ 2 - b ^ 2).
Proof.
  assert (E : mv (rad4 k) (mkQ4 1 1 0 0) = mkQ4 k (- k) 0 0).
  { unfold mv, rad4, q4map, dot. cbn [c0 c1 c2 c3]. f_equal; ring. }
  rewrite E. assert (E2 : vm (mkQ4 k (- k) 0 0) (diag4 a b d e) = mkQ4 (a * k) (- (b * k)) 0 0).
  { unfold vm, mv, transpose, mtab, q4tab, diag4, q4map, dot. cbv [mnth q4nth]. cbn [c0 c1 c2 c3]. f_equal; ring. }
  rewrite E2. unfold inner, sum4, diag4. cbv [mnth q4nth]. cbn [c0 c1 c2 c3]. ring.
Qed.
Lemma kn_lorentz_refuted c G Cc : 2 < c -> 0 < G -> 0 < Cc ->
  exists o p w a d, black_hole c G Cc o /\ has_velocity p 0 (w 0)
    /\ kn_f_vec c G Cc o (p 0) (w 0) = Ok (w 0, a) /\ has_velocity w 0 a
    /\ is_derive (norm_along (kn_cov c G Cc o) p w) 0 d /\ d <> 0.
Proof.
  intros Hc2 HG HC. assert (Hc : 0 < c) by lra. assert (HGC : 0 < G * Cc) by (apply Rmult_lt_0_compat; assumption).
  set (o := wit c G NKerrNewman 0 (c ^ 2 / sqrt (G * Cc)) 1). set (x := mkQ4 0 4 (PI / 2) 0). set (v := mkQ4 1 1 0 0).
  assert (Hrs : sch_rad c G o = 2) by (apply wit_rs; assumption).
  assert (Hal : al_of c G o = 0) by (apply wit_al; assumption).
  assert (HQ : charge_radius2 c G Cc o = 1).
  { unfold charge_radius2, o, wit. cbn [mo_Q q_val]. assert (S := sqrt_sqrt (G * Cc) ltac:(lra)). assert (0 < sqrt (G * Cc)) by (apply sqrt_lt_R0; exact HGC).
    replace ((c ^ 2 / sqrt (G * Cc)) ^ 2 * G * Cc / c ^ 4) with (G * Cc / (sqrt (G * Cc) * sqrt (G * Cc))) by (field; split; lra). rewrite S. field. lra. }
  assert (HrQ : rQ_of c G Cc o = 1) by (unfold rQ_of; rewrite HQ; apply sqrt_1).
  assert (Hv : valid_spin o) by (unfold valid_spin, o, wit; cbn [mo_a q_val]; lra).
  assert (Hsg : sg_of (al_of c G o) (c1 x) (c2 x) = 16) by (rewrite Hal; unfold sg_of, x; cbn [c1 c2]; rewrite cos_PI2; ring).
  assert (Hdl : dl_of (sch_rad c G o) (al_of c G o) (c1 x) = 8) by (rewrite Hal, Hrs; unfold dl_of, x; cbn [c1]; ring).
  assert (D : bl_dom c G o x) by (split; [reflexivity|]; split; [exact Hv|]; rewrite Hsg, Hdl; split; lra).
  assert (Hg : kn_cov c G Cc o x = Ok (diag4 (c ^ 2 / 2) (-2) (-16) (-16))).
  { rewrite kn_cov_eq by exact D. f_equal. rewrite Hsg, Hdl, Hal. unfold x, diag4, kn_g. cbn [c1 c2]. rewrite sin_PI2. f_equal; f_equal; field. }
  assert (Hc2' : c ^ 2 <> 0) by (apply pow_nonzero; lra).
  destruct (proj2 (kn_contra_defined c G Cc o x ltac:(lra))) as [gi Hgi].
  { split; [exact D|]. unfold x; cbn [c2]. rewrite sin_PI2. lra. }
  assert (Egi : gi = diag4 (/ (c ^ 2 / 2)) (/ -2) (/ -16) (/ -16)).
  { apply (inverse_unique (diag4 (c ^ 2 / 2) (-2) (-16) (-16))); [|apply diag4_inv; try lra; intros E; apply Hc2'; lra].
    unfold metric_contravariant in Hgi. rewrite Hg in Hgi. cbn [bindR] in Hgi. apply np_inv_ok. exact Hgi. }
  assert (De : em_dom c G o x) by (split; [exact Hv|rewrite Hsg; lra]).
  destruct (em_A_eq c G Cc o x Hc HG HC De) as [_ HF].
  assert (Ha : exists a, kn_f_vec c G Cc o x v = Ok (v, a)).
  { unfold kn_f_vec, kn_christoffels, em_tensor_contravariant. change (mo_sys o) with BL. cbv iota. rewrite Hgi. cbn [bindR].
    unfold kn_dgdx. rewrite kn_params_eq by exact Hv. cbn [bindR]. rewrite finite_if_ok by (rewrite Hsg, Hdl; repeat constructor; lra).
    cbn [bindR]. rewrite HF. cbn [bindR]. rewrite Hg. cbn [bindR]. eauto. }
  destruct Ha as [a Ha].
  assert (K := kn_norm_drift c G Cc o (fun s => vadd x (vscal s v)) (fun s => vadd v (vscal s a)) 0 v a).
  cbv beta in K. rewrite !vadd_0 in K. destruct (K (D_lin_path x v) Ha (D_lin_path v a)) as [g [F [Hg' [HF' Dv]]]].
  rewrite Hg in Hg'. apply Ok_inj in Hg'. subst g.
  unfold em_tensor_contravariant in HF'. rewrite HF, Hgi in HF'. cbn [bindR] in HF'. apply Ok_inj in HF'.
  exists o, (fun s => vadd x (vscal s v)), (fun s => vadd v (vscal s a)), a. eexists. rewrite !vadd_0.
  split; [split; [exact Hv|rewrite Hal, Hrs, HQ; lra]|]. split; [apply D_lin_path|]. split; [exact Ha|]. split; [apply D_lin_path|].
  split; [exact Dv|]. rewrite <- HF', Egi, Hsg, Hal, HrQ. unfold x, v. change (q_val (mo_q o)) with 1.
  cbn [c1 c2]. rewrite em_F_wit, mm_rad, inner_rad.
  replace (- 2 * 1 * (/ (c ^ 2 / 2) * / -2 * / 16 * ((c ^ 2 / 2) ^ 2 - (-2) ^ 2))) with ((c ^ 4 - 16) / (32 * c ^ 2)) by (field; lra).
  apply Rgt_not_eq. apply Rdiv_lt_0_compat.
  - assert (4 < c ^ 2) by nra. replace (c ^ 4) with (c ^ 2 * c ^ 2) by ring. nra.
  - assert (0 < c ^ 2) by (apply pow_lt; lra). lra.
Qed.

(** *** C43 *)
Lemma base_cov_spec cov pert x : (forall g, cov x = Ok g ->
    match pert with
    | None => base_metric_covariant cov pert x = Ok g
    | Some p => (forall h, p x = Ok h -> exists s, base_metric_covariant cov pert x = Ok s
                   /\ forall i j, (i < 4)%nat -> (j < 4)%nat -> mnth s i j = mnth g i j + mnth h i j)
                /\ (forall e, p x = Err e -> base_metric_covariant cov pert x = Err e)
    end)
  /\ (forall e, cov x = Err e -> base_metric_covariant cov pert x = Err e).
Proof.
  split.
  - intros g Hg. unfold base_metric_covariant. rewrite Hg. cbn [bindR]. destruct pert as [p|]; [|reflexivity]. split.
    + intros h Hh. rewrite Hh. cbn [bindR]. eexists. split; [reflexivity|]. intros i j Hi Hj.
      idx4 i Hi; (idx4 j Hj); reflexivity.
    + intros e He. rewrite He. reflexivity.
  - intros e He. unfold base_metric_covariant. rewrite He. reflexivity.
Qed.
Lemma contravariant_inverse cov x g : cov x = Ok g ->
  (forall gi, metric_contravariant cov x = Ok gi <-> is_inverse g gi)
  /\ (metric_contravariant cov x = Err LinAlgError <-> ~ exists gi, is_inverse g gi).
Proof.
  intros Hg. unfold metric_contravariant. rewrite Hg. cbn [bindR]. split; [|apply np_inv_fails_iff].
  intros gi. split; [apply np_inv_ok|]. intros H. destruct (Req_EM_T (det4 g) 0) as [Z|Z].
  - exfalso. apply (proj1 (np_inv_fails_iff g)); [|eauto]. unfold np_inv. destruct Req_EM_T; [reflexivity|contradiction].
  - destruct (np_inv_defined g Z) as [gi' E]. rewrite E. f_equal. apply (inverse_unique g); [apply np_inv_ok; exact E|exact H].
Qed.
Lemma contravariant_error cov x e : cov x = Err e -> metric_contravariant cov x = Err e.
Proof. intros H. unfold metric_contravariant. rewrite H. reflexivity. Qed.
(** the SI metrics: symmetric, and where their contravariant form exists *)
Lemma si_metrics_symmetric c G Cc o x g : sch_cov c G o x = Ok g \/ kerr_cov c G Cc o x = Ok g \/ kn_cov c G Cc o x = Ok g -> sym4 g.
Proof.
  intros [H|[H|H]].
  - unfold sch_cov in H. destruct (mo_sys o); try discriminate. apply finite_if_inv in H. destruct H as [-> _]. apply sch_g_sym.
  - assert (D := kerr_cov_dom _ _ _ _ _ _ H). rewrite kerr_cov_eq in H by exact D. apply Ok_inj in H. subst g. apply kerr_g_sym.
  - assert (D := kn_cov_dom _ _ _ _ _ _ H). rewrite kn_cov_eq in H by exact D. apply Ok_inj in H. subst g. apply kn_g_sym.
Qed.
Lemma kerr_contra_defined c G Cc o x : c <> 0 ->
  ((exists gi, metric_contravariant (kerr_cov c G Cc o) x = Ok gi) <-> bl_dom c G o x /\ sin (c2 x) <> 0).
Proof.
  intros Hc. rewrite <- (kn_contra_defined c G Cc o x Hc). unfold metric_contravariant. rewrite kerr_cov_is_kn. reflexivity.
Qed.
Lemma contra_symmetric cov x g gi : cov x = Ok g -> sym4 g -> metric_contravariant cov x = Ok gi -> sym4 gi.
Proof. intros Hg Hs H. apply (contravariant_inverse cov x g Hg) in H. eapply inverse_sym; eassumption. Qed.
