From Coq Require Import Reals List ZArith Lra Lia Bool.
From Coquelicot Require Import Coquelicot.
From Verif Require Import Base Calc GeoUtilsModel GeoUtilsProofs CoordModel CoordProofs2 ConvModel ConvProofs MetricModel MetricSpec MetricProofs MetricProofs2 MetricProofs3 MetricProofs4 MetricProofs5 MetricProofs6.
Import ListNotations.
Open Scope R_scope.

(** *** C37 *)
Lemma kn_ignores_charge c G Cc o Q x :
  kn_cov c G Cc (mkmobj (mo_name o) (mo_sys o) (mo_M o) (mo_a o) Q (mo_q o)) x = kn_cov c G Cc o x.
Proof. reflexivity. Qed.
Lemma kn_is_textbook_uncharged c G Cc o x g : kn_cov c G Cc o x = Ok g ->
  g = kn_textbook c (al_of c G o) (sch_rad c G o) 0 (c1 x) (c2 x).
Proof.
  intros H. assert (D := kn_cov_dom _ _ _ _ _ _ H). rewrite <- kerr_cov_is_kn in H. rewrite kerr_cov_eq in H by exact D. apply Ok_inj in H. subst g.
  destruct D as [_ [_ [H3 H4]]]. unfold kn_textbook. fold (sg_of (al_of c G o) (c1 x) (c2 x)).
  replace (c1 x ^ 2 - sch_rad c G o * c1 x + al_of c G o ^ 2 + 0) with (dl_of (sch_rad c G o) (al_of c G o) (c1 x)) by (unfold dl_of; ring).
  revert H3 H4. generalize (sg_of (al_of c G o) (c1 x) (c2 x)) (dl_of (sch_rad c G o) (al_of c G o) (c1 x)). intros sg dl H3 H4.
  apply M4_eq. intros i j Hi Hj. idx4 i Hi; (idx4 j Hj); cbv [kerr_g mnth q4nth]; cbn [c0 c1 c2 c3]; try reflexivity; try (field; assumption).
Qed.
(** the charged textbook metric is missed by exactly c^2 r_Q^2 / rho^2 in g_00 *)
Lemma kn_charge_error c G Cc o x g : kn_cov c G Cc o x = Ok g ->
  mnth g 0 0 - mnth (kn_textbook c (al_of c G o) (sch_rad c G o) (charge_radius2 c G Cc o) (c1 x) (c2 x)) 0 0
  = - (c ^ 2 * charge_radius2 c G Cc o / sg_of (al_of c G o) (c1 x) (c2 x)).
Proof.
  intros H. assert (D := kn_cov_dom _ _ _ _ _ _ H). rewrite (kn_is_textbook_uncharged _ _ _ _ _ _ H).
  destruct D as [_ [_ [H3 _]]]. cbv [kn_textbook mnth q4nth]; cbn [c0 c1 c2 c3]. fold (sg_of (al_of c G o) (c1 x) (c2 x)).
  field. exact H3.
Qed.
Lemma charge_radius2_pos c G Cc o : 0 < c -> 0 < G -> 0 < Cc -> q_val (mo_Q o) <> 0 -> 0 < charge_radius2 c G Cc o.
Proof.
  intros Hc HG HC HQ. unfold charge_radius2. apply Rdiv_lt_0_compat; [|apply pow_lt; exact Hc].
  apply Rmult_lt_0_compat; [|exact HC]. apply Rmult_lt_0_compat; [|exact HG]. apply pow2_gt_0. exact HQ.
Qed.
Lemma kn_charged_wrong c G Cc o x g : 0 < c -> 0 < G -> 0 < Cc -> q_val (mo_Q o) <> 0 -> kn_cov c G Cc o x = Ok g ->
  g <> kn_textbook c (al_of c G o) (sch_rad c G o) (charge_radius2 c G Cc o) (c1 x) (c2 x).
Proof.
  intros Hc HG HC HQ H E. assert (K := kn_charge_error _ _ _ _ _ _ H). rewrite E in K. rewrite Rminus_diag_eq in K by reflexivity.
  assert (P := charge_radius2_pos c G Cc o Hc HG HC HQ). apply kn_cov_dom in H. destruct H as [_ [_ [H3 _]]].
  assert (N : 0 < sg_of (al_of c G o) (c1 x) (c2 x)).
  { assert (0 <= sg_of (al_of c G o) (c1 x) (c2 x)) by (unfold sg_of; assert (0 <= c1 x ^ 2) by apply pow2_ge_0; assert (0 <= (al_of c G o * cos (c2 x)) ^ 2) by apply pow2_ge_0; lra).
    lra. }
  assert (0 < c ^ 2 * charge_radius2 c G Cc o / sg_of (al_of c G o) (c1 x) (c2 x)); [|lra].
  apply Rdiv_lt_0_compat; [|exact N]. apply Rmult_lt_0_compat; [apply pow_lt; exact Hc|exact P].
Qed.
(** at the horizons reported for a charged hole the metric array is perfectly finite *)
Lemma kn_finite_at_horizon c G Cc o s x : 0 < c -> 0 < G -> 0 < Cc -> q_val (mo_Q o) <> 0 -> mo_name o = NKerrNewman -> mo_sys o = BL ->
  black_hole c G Cc o -> singularities c G Cc o = Ok s -> c1 x = out_hor s -> exists g, kn_cov c G Cc o x = Ok g.
Proof.
  intros Hc HG HC HQ Hn Hs Hb Es Hx. destruct (sing_bl c G Cc o ltac:(lra) ltac:(lra) ltac:(lra) (or_intror Hn) Hs Hb) as [s' [Es' [Hh Hord]]].
  rewrite Es in Es'. apply Ok_inj in Es'. subst s'. destruct Hb as [Hv [Hr Hb]].
  assert (P := charge_radius2_pos c G Cc o Hc HG HC HQ).
  assert (Z := proj2 (Hh (c1 x)) (or_intror Hx)).
  assert (E1 : delta c G Cc (NFloat (c1 x)) (NQty (mo_M o)) (NQty (mo_a o)) (NQty (mo_Q o)) = Ok (dl_of (sch_rad c G o) (al_of c G o) (c1 x) + charge_radius2 c G Cc o)).
  { unfold delta. cbn [prim]. rewrite bm_alpha_valid by exact Hv. cbn [bindR prim]. f_equal.
    unfold dl_of, sch_rad, schwarzschild_radius, al_of, charge_radius2. cbn [prim]. unfold Rdiv. ring. }
  rewrite E1 in Z. apply Ok_inj in Z.
  assert (Hpos : 0 < c1 x).
  { destruct (Hord 0) as [e1 [e2 [_ [_ [_ [O1 [O2 O3]]]]]]].
    assert (0 <= c1 x) by lra. destruct (Req_dec (c1 x) 0) as [E0|]; [|lra].
    exfalso. rewrite E0 in Z. unfold dl_of in Z. assert (0 <= al_of c G o ^ 2) by apply pow2_ge_0. lra. }
  eexists. apply kn_cov_eq. split; [exact Hs|]. split; [exact Hv|]. split; [|lra].
  unfold sg_of. assert (0 <= (al_of c G o * cos (c2 x)) ^ 2) by apply pow2_ge_0. assert (0 < c1 x ^ 2) by (apply pow_lt; exact Hpos). lra.
Qed.
Lemma kn_metric_refuted c G Cc : 0 < c -> 0 < G -> 0 < Cc ->
  exists o x g, black_hole c G Cc o /\ kn_cov c G Cc o x = Ok g
    /\ g <> kn_textbook c (al_of c G o) (sch_rad c G o) (charge_radius2 c G Cc o) (c1 x) (c2 x).
Proof.
  intros Hc HG HC. assert (HGC : 0 < G * Cc) by (apply Rmult_lt_0_compat; assumption).
  set (o := wit c G NKerrNewman 0 (c ^ 2 / sqrt (G * Cc)) 0). set (x := mkQ4 0 4 (PI / 2) 0).
  assert (Hrs : sch_rad c G o = 2) by (apply wit_rs; assumption).
  assert (Hal : al_of c G o = 0) by (apply wit_al; assumption).
  assert (HQ : charge_radius2 c G Cc o = 1).
  { unfold charge_radius2, o, wit. cbn [mo_Q q_val]. assert (S := sqrt_sqrt (G * Cc) ltac:(lra)). assert (0 < sqrt (G * Cc)) by (apply sqrt_lt_R0; exact HGC).
    replace ((c ^ 2 / sqrt (G * Cc)) ^ 2 * G * Cc / c ^ 4) with (G * Cc / (sqrt (G * Cc) * sqrt (G * Cc))) by (field; split; lra). rewrite S. field. lra. }
  assert (Hv : valid_spin o) by (unfold valid_spin, o, wit; cbn [mo_a q_val]; lra).
  assert (D : exists g, kn_cov c G Cc o x = Ok g).
  { eexists. apply kn_cov_eq. split; [reflexivity|]. split; [exact Hv|]. rewrite Hal, Hrs. unfold sg_of, dl_of, x. cbn [c1 c2]. split; lra. }
  destruct D as [g Hg]. exists o, x, g. split; [|split; [exact Hg|]].
  - split; [exact Hv|]. rewrite Hal, Hrs, HQ. lra.
  - apply kn_charged_wrong; try assumption. unfold o, wit; cbn [mo_Q q_val]. apply Rgt_not_eq. apply Rdiv_lt_0_compat; [apply pow_lt; exact Hc|apply sqrt_lt_R0; exact HGC].
Qed.

(** *** C41 *)
Definition rQ_of (c G Cc : R) (o : mobj) : R := sqrt (charge_radius2 c G Cc o).
Lemma rQ_ok c G Cc o : 0 < c -> 0 < G -> 0 < Cc -> r_Q c G Cc o = Ok (rQ_of c G Cc o).
Proof.
  intros Hc HG HC. unfold r_Q. apply np_sqrt_ok. unfold Rdiv. apply Rmult_le_pos.
  - apply Rmult_le_pos; [apply Rmult_le_pos; [apply pow2_ge_0|lra]|lra].
  - left. apply Rinv_0_lt_compat. apply pow_lt. exact Hc.
Qed.
Lemma rho_ok c G o x : valid_spin o ->
  exists rh, rho c G (NFloat (c1 x)) (NFloat (c2 x)) (NFloat (q_val (mo_M o))) (NFloat (q_val (mo_a o))) = Ok rh
    /\ rh ^ 2 = sg_of (al_of c G o) (c1 x) (c2 x).
Proof.
  intros Hv. unfold rho, sigma. cbn [prim]. rewrite bm_alpha_valid by exact Hv. cbn [bindR prim]. fold (al_of c G o). fold (sg_of (al_of c G o) (c1 x) (c2 x)).
  assert (N : 0 <= sg_of (al_of c G o) (c1 x) (c2 x)) by (unfold sg_of; nra).
  rewrite np_sqrt_ok by exact N. eexists. split; [reflexivity|]. apply pow2_sqrt. exact N.
Qed.
Definition em_dom (c G : R) (o : mobj) (x : V4) : Prop := valid_spin o /\ sg_of (al_of c G o) (c1 x) (c2 x) <> 0.
Lemma em_A_eq c G Cc o x : 0 < c -> 0 < G -> 0 < Cc -> em_dom c G o x ->
  em_potential_covariant c G Cc o x = Ok (em_A (al_of c G o) (rQ_of c G Cc o) (sg_of (al_of c G o) (c1 x) (c2 x)) (c1 x) (c2 x))
  /\ em_tensor_covariant c G Cc o x = Ok (em_F (al_of c G o) (rQ_of c G Cc o) (sg_of (al_of c G o) (c1 x) (c2 x)) (c1 x) (c2 x)).
Proof.
  intros Hc HG HC [Hv Hs]. unfold em_potential_covariant, em_tensor_covariant. rewrite bm_alpha_valid by exact Hv. cbn [bindR prim]. rewrite rQ_ok by assumption. cbn [bindR].
  destruct (rho_ok c G o x Hv) as [rh [Hr E]]. rewrite Hr. cbn [bindR]. rewrite E.
  split; apply finite_if_ok; repeat constructor; exact Hs.
Qed.
Lemma em_F_dom c G Cc o x F : em_tensor_covariant c G Cc o x = Ok F -> em_dom c G o x.
Proof.
  unfold em_tensor_covariant. intros H. apply bindR_Ok in H. destruct H as [al [Ha H]]. apply bindR_Ok in H. destruct H as [q [Hq H]].
  apply bindR_Ok in H. destruct H as [rh [Hr H]]. apply finite_if_inv in H. destruct H as [_ H]. inversion_clear H as [|? ? H1 _].
  assert (Hv : valid_spin o).
  { destruct (Rle_dec 0 (q_val (mo_a o))), (Rle_dec (q_val (mo_a o)) 1); unfold valid_spin; try lra;
    rewrite (proj2 (alpha_error_iff c G (NFloat (q_val (mo_M o))) (NFloat (q_val (mo_a o))))) in Ha by (cbn [prim]; lra); discriminate. }
  split; [exact Hv|]. destruct (rho_ok c G o x Hv) as [rh' [Hr' E]]. rewrite Hr in Hr'. apply Ok_inj in Hr'. subst rh'. rewrite <- E. exact H1.
Qed.
Lemma em_F_eq c G Cc o x F : 0 < c -> 0 < G -> 0 < Cc -> em_tensor_covariant c G Cc o x = Ok F ->
  em_dom c G o x /\ F = em_F (al_of c G o) (rQ_of c G Cc o) (sg_of (al_of c G o) (c1 x) (c2 x)) (c1 x) (c2 x).
Proof.
  intros Hc HG HC H. assert (D := em_F_dom _ _ _ _ _ _ H). split; [exact D|]. rewrite (proj2 (em_A_eq c G Cc o x Hc HG HC D)) in H.
  apply Ok_inj in H. symmetry. exact H.
Qed.
Lemma em_antisym c G Cc o x F : em_tensor_covariant c G Cc o x = Ok F -> antisymmetric4 F.
Proof.
  unfold em_tensor_covariant. intros H. apply bindR_Ok in H. destruct H as [al [Ha H]]. apply bindR_Ok in H. destruct H as [q [Hq H]].
  apply bindR_Ok in H. destruct H as [rh [Hr H]]. apply finite_if_inv in H. destruct H as [-> _].
  intros i j Hi Hj. idx4 i Hi; (idx4 j Hj); cbv [em_F mnth q4nth]; cbn [c0 c1 c2 c3]; ring.
Qed.

(** true gradient of the potential *)
Definition em_dA (al rQ sg r th : R) (k i : nat) : R :=
  match k, i with
  | 1%nat, 0%nat => rQ * (sg - 2 * r ^ 2) / sg ^ 2
  | 2%nat, 0%nat => r * rQ * (al ^ 2 * (2 * sin th * cos th)) / sg ^ 2
  | 1%nat, 3%nat => - (al * rQ * sin th ^ 2 * (sg - 2 * r ^ 2) / sg ^ 2)
  | 2%nat, 3%nat => - (al * rQ * r * (2 * sin th * cos th) * (sg + (al * sin th) ^ 2) / sg ^ 2)
  | _, _ => 0
  end.
Lemma em_gradient c G Cc o x : 0 < c -> 0 < G -> 0 < Cc -> em_dom c G o x ->
  is_vgradient (em_potential_covariant c G Cc o) x
    (em_dA (al_of c G o) (rQ_of c G Cc o) (sg_of (al_of c G o) (c1 x) (c2 x)) (c1 x) (c2 x)).
Proof.
  intros Hc HG HC [Hv Hs] p t v Hp Hw. set (al := al_of c G o) in *. set (q := rQ_of c G Cc o).
  assert (Dr := path_r p t v Hw). assert (Dt := path_th p t v Hw).
  assert (DS : is_derive (fun s => sg_of al (c1 (p s)) (c2 (p s))) t
       (2 * c1 (p t) * c1 v + - (al ^ 2) * (2 * sin (c2 (p t)) * cos (c2 (p t))) * c2 v)).
  { unfold sg_of. D_auto. simpl INR; simpl pred. ring. }
  rewrite <- Hp in Hs |- *.
  assert (L := locally_nonzero _ _ (D_continuous _ _ _ DS) Hs).
  assert (LE : locally t (fun s => em_potential_covariant c G Cc o (p s) = Ok (em_A al q (sg_of al (c1 (p s)) (c2 (p s))) (c1 (p s)) (c2 (p s))))).
  { generalize L. apply filter_imp. intros s N. apply em_A_eq; try assumption. split; assumption. }
  split; [generalize LE; apply filter_imp; intros s E; rewrite E; eauto|]. intros i Hi.
  apply is_derive_ext_loc with (f := fun s => q4nth (em_A al q (sg_of al (c1 (p s)) (c2 (p s))) (c1 (p s)) (c2 (p s))) i).
  { generalize LE. apply filter_imp. intros s E. rewrite E. reflexivity. }
  set (Sg := fun s => sg_of al (c1 (p s)) (c2 (p s))) in *. set (r := fun s => c1 (p s)) in *. set (th := fun s => c2 (p s)) in *.
  change (is_derive (fun s => q4nth (em_A al q (Sg s) (r s) (th s)) i) t (sum4 (fun k => em_dA al q (Sg t) (r t) (th t) k i * q4nth v k))).
  change (Sg t <> 0) in Hs. change (is_derive r t (c1 v)) in Dr. change (is_derive th t (c2 v)) in Dt.
  change (is_derive Sg t (2 * r t * c1 v + - al ^ 2 * (2 * sin (th t) * cos (th t)) * c2 v)) in DS.
  assert (ES : Sg t = r t ^ 2 + al ^ 2 - (al * sin (th t)) ^ 2).
  { unfold Sg, sg_of. fold (r t) (th t). rewrite !Rpow_mult_distr, sin2_pow. ring. }
  clearbody Sg r th. clear Hw Hp LE L.
  idx4 i Hi; unfold em_A, em_dA, sum4; cbn [q4nth c0 c1 c2 c3].
  - D_auto; [exact Hs|]. field. exact Hs.
  - eapply D_eq; [apply D_const|]. ring.
  - eapply D_eq; [apply D_const|]. ring.
  - D_auto; [exact Hs|]. simpl INR; simpl pred. field. exact Hs.
Qed.
(** what em_tensor_covariant returns, relative to d_i A_j - d_j A_i *)
Lemma em_tensor_exact c G Cc o x F : 0 < c -> 0 < G -> 0 < Cc -> em_tensor_covariant c G Cc o x = Ok F ->
  exists dA, is_vgradient (em_potential_covariant c G Cc o) x dA
   /\ (forall i j, (i < 4)%nat -> (j < 4)%nat -> (i = 0 \/ j = 0 \/ (i < 3 /\ j < 3))%nat -> mnth F i j = dA i j - dA j i)
   /\ mnth F 1 3 = - (dA 1%nat 3%nat - dA 3%nat 1%nat) /\ mnth F 2 3 = - (dA 2%nat 3%nat - dA 3%nat 2%nat).
Proof.
  intros Hc HG HC H. destruct (em_F_eq _ _ _ _ _ _ Hc HG HC H) as [D ->]. eexists. split; [apply em_gradient; assumption|].
  destruct D as [_ Hs]. revert Hs. generalize (sg_of (al_of c G o) (c1 x) (c2 x)). intros sg Hs.
  split; [|split].
  - intros i j Hi Hj K. idx4 i Hi; (idx4 j Hj); try (exfalso; lia);
    cbv [em_F mnth q4nth em_dA]; cbn [c0 c1 c2 c3]; try rewrite sin_2a; field; exact Hs.
  - cbv [em_F mnth q4nth em_dA]; cbn [c0 c1 c2 c3]. field. exact Hs.
  - cbv [em_F mnth q4nth em_dA]; cbn [c0 c1 c2 c3]. rewrite sin_2a. field. exact Hs.
Qed.
Lemma vgradient_unique A x d d' k i : is_vgradient A x d -> is_vgradient A x d' -> (k < 4)%nat -> (i < 4)%nat -> d k i = d' k i.
Proof.
  intros H H' Hk Hi. set (e := q4tab (fun j => if Nat.eqb j k then 1 else 0) : V4).
  assert (P : has_velocity (fun s => vadd x (vscal s e)) 0 e) by apply D_lin_path.
  destruct (H _ 0 e (vadd_0 x e) P) as [_ D1]. destruct (H' _ 0 e (vadd_0 x e) P) as [_ D2].
  assert (E := D_unique _ _ _ _ (D1 i Hi) (D2 i Hi)). revert E. unfold sum4, e, q4tab.
  idx4 k Hk; cbn [q4nth c0 c1 c2 c3 Nat.eqb]; lra.
Qed.
(** without spin or without charge the tensor is exactly dA *)
Lemma em_tensor_partial c G Cc o x F : 0 < c -> 0 < G -> 0 < Cc -> em_tensor_covariant c G Cc o x = Ok F -> al_of c G o = 0 \/ q_val (mo_Q o) = 0 ->
  exists dA, is_vgradient (em_potential_covariant c G Cc o) x dA
   /\ forall i j, (i < 4)%nat -> (j < 4)%nat -> mnth F i j = dA i j - dA j i.
Proof.
  intros Hc HG HC H Z. destruct (em_F_eq _ _ _ _ _ _ Hc HG HC H) as [D ->]. eexists. split; [apply em_gradient; assumption|].
  assert (Z' : al_of c G o = 0 \/ rQ_of c G Cc o = 0).
  { destruct Z as [Z|Z]; [left; exact Z|right]. unfold rQ_of, charge_radius2. rewrite Z. replace (0 ^ 2 * G * Cc / c ^ 4) with 0 by (unfold Rdiv; ring). apply sqrt_0. }
  destruct D as [_ Hs]. revert Hs Z'. generalize (sg_of (al_of c G o) (c1 x) (c2 x)) (al_of c G o) (rQ_of c G Cc o). intros sg al q Hs Z'.
  intros i j Hi Hj. idx4 i Hi; (idx4 j Hj); cbv [em_F mnth q4nth em_dA]; cbn [c0 c1 c2 c3]; try rewrite sin_2a; destruct Z' as [->| ->]; field; exact Hs.
Qed.
Lemma em_tensor_refuted c G Cc : 0 < c -> 0 < G -> 0 < Cc ->
  exists o x F dA, black_hole c G Cc o /\ em_tensor_covariant c G Cc o x = Ok F /\ is_vgradient (em_potential_covariant c G Cc o) x dA
   /\ mnth F 1 3 <> dA 1%nat 3%nat - dA 3%nat 1%nat.
Proof.
  intros Hc HG HC. assert (HGC : 0 < G * Cc) by (apply Rmult_lt_0_compat; assumption).
  set (o := wit c G NKerrNewman (/ 2) (/ 2 * (c ^ 2 / sqrt (G * Cc))) 0). set (x := mkQ4 0 4 (PI / 2) 0).
  assert (Hrs : sch_rad c G o = 2) by (apply wit_rs; assumption).
  assert (Hal : al_of c G o = / 2) by (apply wit_al; assumption).
  assert (HQ : charge_radius2 c G Cc o = / 2 * / 2).
  { unfold charge_radius2, o, wit. cbn [mo_Q q_val]. assert (S := sqrt_sqrt (G * Cc) ltac:(lra)). assert (0 < sqrt (G * Cc)) by (apply sqrt_lt_R0; exact HGC).
    replace ((/ 2 * (c ^ 2 / sqrt (G * Cc))) ^ 2 * G * Cc / c ^ 4) with (/ 4 * (G * Cc / (sqrt (G * Cc) * sqrt (G * Cc)))) by (field; split; lra). rewrite S. field. lra. }
  assert (HrQ : rQ_of c G Cc o = / 2) by (unfold rQ_of; rewrite HQ; apply sqrt_square; lra).
  assert (Hv : valid_spin o) by (unfold valid_spin, o, wit; cbn [mo_a q_val]; lra).
  assert (Hsg : sg_of (al_of c G o) (c1 x) (c2 x) = 16) by (rewrite Hal; unfold sg_of, x; cbn [c1 c2]; rewrite cos_PI2; ring).
  assert (D : em_dom c G o x) by (split; [exact Hv|rewrite Hsg; lra]).
  destruct (em_A_eq c G Cc o x Hc HG HC D) as [_ HF].
  do 2 eexists. exists (em_F (al_of c G o) (rQ_of c G Cc o) (sg_of (al_of c G o) (c1 x) (c2 x)) (c1 x) (c2 x)). eexists.
  split; [|split; [exact HF|split; [apply em_gradient; assumption|]]].
  - split; [exact Hv|]. rewrite Hrs, Hal, HQ. lra.
  - rewrite Hsg, Hal, HrQ. unfold x. cbv [em_F mnth q4nth em_dA]; cbn [c0 c1 c2 c3]. rewrite sin_PI2. lra.
Qed.
Lemma inverse_sym g gi : sym4 g -> is_inverse g gi -> sym4 gi.
Proof.
  intros Hs H. assert (T : is_inverse g (transpose gi)).
  { destruct H as [H1 H2]. split; apply M4_eq; intros i j Hi Hj; rewrite mm_entry by assumption.
    - transitivity (mnth (mm gi g) j i).
      + rewrite mm_entry by assumption. apply sum4_ext. intros k Hk. unfold transpose. rewrite mnth_tab by assumption. rewrite (Hs i k) by assumption. ring.
      + rewrite H2. unfold id4. rewrite !mnth_tab by assumption. rewrite Nat.eqb_sym. reflexivity.
    - transitivity (mnth (mm g gi) j i).
      + rewrite mm_entry by assumption. apply sum4_ext. intros k Hk. unfold transpose. rewrite mnth_tab by assumption. rewrite (Hs k j) by assumption. ring.
      + rewrite H1. unfold id4. rewrite !mnth_tab by assumption. rewrite Nat.eqb_sym. reflexivity. }
  assert (E := inverse_unique _ _ _ H T). intros i j Hi Hj. transitivity (mnth (transpose gi) i j); [rewrite <- E; reflexivity|]. unfold transpose. rewrite mnth_tab by assumption. reflexivity.
Qed.
Lemma raise_antisym F gi : sym4 gi -> antisymmetric4 F -> antisymmetric4 (mm (mm gi F) gi).
Proof.
  intros Hs HF i j Hi Hj. rewrite !mm_entry by assumption. unfold sum4. rewrite !mm_entry by (assumption || lia). unfold sum4.
  assert (A : forall a b, (a < 4)%nat -> (b < 4)%nat -> mnth F a b = - mnth F b a) by exact HF.
  rewrite (Hs 0%nat j), (Hs 1%nat j), (Hs 2%nat j), (Hs 3%nat j), (Hs 0%nat i), (Hs 1%nat i), (Hs 2%nat i), (Hs 3%nat i) by (assumption || lia).
  rewrite (A 1 0)%nat, (A 2 0)%nat, (A 3 0)%nat, (A 2 1)%nat, (A 3 1)%nat, (A 3 2)%nat by lia.
  assert (Z : forall a, (a < 4)%nat -> mnth F a a = 0) by (intros a Ha; specialize (A a a Ha Ha); lra).
  rewrite !Z by lia. ring.
Qed.
Lemma em_contra_antisym c G Cc o x F : em_tensor_contravariant c G Cc o x = Ok F -> antisymmetric4 F.
Proof.
  unfold em_tensor_contravariant. intros H. apply bindR_Ok in H. destruct H as [F0 [H0 H]]. apply bindR_Ok in H. destruct H as [gc [Hg H]].
  apply Ok_inj in H. subst F. apply raise_antisym; [|eapply em_antisym; exact H0].
  unfold metric_contravariant in Hg. apply bindR_Ok in Hg. destruct Hg as [g [Hg Hi]]. apply np_inv_ok in Hi.
  assert (D := kn_cov_dom _ _ _ _ _ _ Hg). rewrite kn_cov_eq in Hg by exact D. apply Ok_inj in Hg. subst g.
  eapply inverse_sym; [apply kn_g_sym|exact Hi].
Qed.

(** *** C42 *)
(** the textbook force F^ij g_jk v^k does no work, for every antisymmetric F *)
Lemma lorentz_force_orthogonal g F v : sym4 g -> antisymmetric4 F -> inner g v (mv F (mv g v)) = 0.
Proof.
  intros Hs HF. set (u := mv g v).
  assert (U : forall i, (i < 4)%nat -> q4nth u i = sum4 (fun k => mnth g i k * q4nth v k)).
  { intros i Hi. unfold u, mv, q4map, dot, sum4. idx4 i Hi; cbv [mnth q4nth]; cbn [c0 c1 c2 c3]; ring. }
  assert (W : forall w, inner g v w = sum4 (fun j => q4nth u j * q4nth w j)).
  { intros w. unfold inner. transitivity (sum4 (fun j => sum4 (fun i => mnth g j i * q4nth v i) * q4nth w j)).
    - assert (A : forall a b, (a < 4)%nat -> (b < 4)%nat -> mnth g a b = mnth g b a) by exact Hs.
      unfold sum4. rewrite (A 1 0)%nat, (A 2 0)%nat, (A 3 0)%nat, (A 2 1)%nat, (A 3 1)%nat, (A 3 2)%nat by lia. ring.
    - apply sum4_ext. intros j Hj. rewrite U by exact Hj. reflexivity. }
  rewrite W. clearbody u. clear U W.
  assert (E : forall i, (i < 4)%nat -> q4nth (mv F u) i = sum4 (fun k => mnth F i k * q4nth u k)).
  { intros i Hi. unfold mv, q4map, dot, sum4. idx4 i Hi; cbv [mnth q4nth]; cbn [c0 c1 c2 c3]; ring. }
  unfold sum4 at 1. rewrite !E by lia.
  assert (A : forall a b, (a < 4)%nat -> (b < 4)%nat -> mnth F a b = - mnth F b a) by exact HF.
  assert (Z : forall a, (a < 4)%nat -> mnth F a a = 0) by (intros a Ha; specialize (A a a Ha Ha); lra).
  unfold sum4. rewrite !Z by lia.
  rewrite (A 1 0)%nat, (A 2 0)%nat, (A 3 0)%nat, (A 2 1)%nat, (A 3 1)%nat, (A 3 2)%nat by lia. ring.
Qed.
Lemma norm_rate_sub g dg v a w k : sym4 g -> norm_rate g dg v (vsub a (vscal k w)) = norm_rate g dg v a - 2 * k * inner g v w.
Proof.
  intros Hs. assert (A : forall a b, (a < 4)%nat -> (b < 4)%nat -> mnth g a b = mnth g b a) by exact Hs.
  unfold norm_rate, inner, vsub, vscal, q4map2, q4map, sum4. cbn [q4nth c0 c1 c2 c3].
  rewrite (A 1 0)%nat, (A 2 0)%nat, (A 3 0)%nat, (A 2 1)%nat, (A 3 1)%nat, (A 3 2)%nat by lia. ring.
Qed.
(** exact rate of change of g(v,v) along the flow of the Kerr-Newman f_vec *)
Lemma kn_norm_drift c G Cc o p w t v' a : has_velocity p t (w t) -> kn_f_vec c G Cc o (p t) (w t) = Ok (v', a) -> has_velocity w t a ->
  exists g F, kn_cov c G Cc o (p t) = Ok g /\ em_tensor_contravariant c G Cc o (p t) = Ok F /\
   is_derive (norm_along (kn_cov c G Cc o) p w) t (- 2 * q_val (mo_q o) * inner g (w t) (vm (mv F (w t)) g)).
Proof.
  intros Hp H Hw. apply kn_f_vec_spec in H. destruct H as [-> [ch [F [g [Hch [HF [Hg ->]]]]]]].
  exists g, F. split; [exact Hg|]. split; [exact HF|].
  assert (C := kn_connection c G Cc o (p t) ch Hch). destruct C as [g' [gi [dg [Hg' [Hi [Hd He]]]]]].
  rewrite Hg in Hg'. apply Ok_inj in Hg'. subst g'.
  assert (Hs : sym4 g). { assert (D := kn_cov_dom _ _ _ _ _ _ Hg). rewrite kn_cov_eq in Hg by exact D. apply Ok_inj in Hg. subst g. apply kn_g_sym. }
  eapply D_eq; [apply (norm_deriv _ p w t g dg _ Hg Hd Hp Hw)|].
  rewrite norm_rate_sub by exact Hs. rewrite (accel_ext ch (levi_civita gi dg) (w t) He). rewrite norm_rate_geodesic by assumption.
  unfold sum4 at 1 2 3. match goal with |- ?X - _ = _ => assert (E : X = 0) by (unfold sum4; ring) end. rewrite E. ring.
Qed.
