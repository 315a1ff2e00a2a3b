From Coq Require Import Reals List ZArith Lra Lia Bool.
From Coquelicot Require Import Coquelicot.
From Verif Require Import Base Calc GeoUtilsModel GeoUtilsProofs CoordModel CoordProofs2 ConvModel ConvProofs MetricModel MetricSpec MetricProofs MetricProofs2.
Import ListNotations.
Open Scope R_scope.

(** alpha, sigma and delta of the object at a point *)
Definition al_of (c G : R) (o : mobj) : R := q_val (mo_a o) * (G * q_val (mo_M o) / c ^ 2).
Definition sg_of (al r th : R) : R := r ^ 2 + (al * cos th) ^ 2.
Definition dl_of (rs al r : R) : R := r ^ 2 - rs * r + al ^ 2.
Definition valid_spin (o : mobj) : Prop := 0 <= q_val (mo_a o) <= 1.

Lemma bl_params_eq c G Cc o x : valid_spin o ->
  bl_params c G Cc o x = Ok (al_of c G o, sg_of (al_of c G o) (c1 x) (c2 x), dl_of (sch_rad c G o) (al_of c G o) (c1 x)).
Proof.
  intros H. unfold bl_params, sigma, delta. rewrite !bm_alpha_valid by exact H. cbn [bindR prim].
  unfold dl_of, sch_rad, schwarzschild_radius, sg_of, al_of. cbn [prim]. do 2 f_equal. unfold Rdiv. ring.
Qed.
Lemma kn_params_eq c G Cc o x : valid_spin o ->
  kn_params c G Cc o x = Ok (al_of c G o, sg_of (al_of c G o) (c1 x) (c2 x), dl_of (sch_rad c G o) (al_of c G o) (c1 x)).
Proof.
  intros H. unfold kn_params, rho, sigma, delta. rewrite !bm_alpha_valid by exact H. cbn [bindR prim].
  fold (al_of c G o). fold (sg_of (al_of c G o) (c1 x) (c2 x)).
  assert (N : 0 <= sg_of (al_of c G o) (c1 x) (c2 x)) by (unfold sg_of; nra).
  rewrite np_sqrt_ok by exact N. cbn [bindR].
  replace (sqrt (sg_of (al_of c G o) (c1 x) (c2 x)) ^ 2) with (sg_of (al_of c G o) (c1 x) (c2 x))
    by (symmetry; rewrite sq_pow2; apply sqrt_sqrt; exact N).
  unfold dl_of, sch_rad, schwarzschild_radius. cbn [prim]. do 2 f_equal. unfold Rdiv. ring.
Qed.
Lemma params_invalid c G Cc o x : ~ valid_spin o -> bl_params c G Cc o x = Err ValueError /\ kn_params c G Cc o x = Err ValueError.
Proof.
  intros H. assert (B : q_val (mo_a o) < 0 \/ 1 < q_val (mo_a o)) by (unfold valid_spin in H; lra).
  unfold bl_params, kn_params. rewrite bm_alpha_invalid by exact B. split; reflexivity.
Qed.
Lemma bl_params_ok c G Cc o x y : bl_params c G Cc o x = Ok y -> valid_spin o.
Proof.
  intros H. destruct (Rle_dec 0 (q_val (mo_a o))), (Rle_dec (q_val (mo_a o)) 1); unfold valid_spin; try lra;
    exfalso; destruct (params_invalid c G Cc o x) as [E _]; try (unfold valid_spin; lra); rewrite E in H; discriminate.
Qed.
Lemma kn_params_ok c G Cc o x y : kn_params c G Cc o x = Ok y -> valid_spin o.
Proof.
  intros H. destruct (Rle_dec 0 (q_val (mo_a o))), (Rle_dec (q_val (mo_a o)) 1); unfold valid_spin; try lra;
    exfalso; destruct (params_invalid c G Cc o x) as [_ E]; try (unfold valid_spin; lra); rewrite E in H; discriminate.
Qed.

(** where a BL metric is finite *)
Definition bl_dom (c G : R) (o : mobj) (x : V4) : Prop :=
  mo_sys o = BL /\ valid_spin o /\ sg_of (al_of c G o) (c1 x) (c2 x) <> 0 /\ dl_of (sch_rad c G o) (al_of c G o) (c1 x) <> 0.

Lemma kerr_cov_eq c G Cc o x : bl_dom c G o x -> kerr_cov c G Cc o x =
  Ok (kerr_g c (sch_rad c G o) (al_of c G o) (sg_of (al_of c G o) (c1 x) (c2 x)) (dl_of (sch_rad c G o) (al_of c G o) (c1 x)) (c1 x) (c2 x)).
Proof.
  intros [H1 [H2 [H3 H4]]]. unfold kerr_cov. rewrite H1, bl_params_eq by exact H2. cbn [bindR]. apply finite_if_ok. repeat constructor; assumption.
Qed.
Lemma kn_cov_eq c G Cc o x : bl_dom c G o x -> kn_cov c G Cc o x =
  Ok (kn_g c (al_of c G o) (sg_of (al_of c G o) (c1 x) (c2 x)) (dl_of (sch_rad c G o) (al_of c G o) (c1 x)) (c1 x) (c2 x)).
Proof.
  intros [H1 [H2 [H3 H4]]]. unfold kn_cov. rewrite H1, kn_params_eq by exact H2. cbn [bindR]. apply finite_if_ok. repeat constructor; assumption.
Qed.
Lemma kerr_cov_dom c G Cc o x g : kerr_cov c G Cc o x = Ok g -> bl_dom c G o x.
Proof.
  unfold kerr_cov. destruct (mo_sys o) eqn:Hs; try discriminate. intros H. assert (H' := H). apply bindR_Ok in H'. destruct H' as [y [Hy _]].
  apply bl_params_ok in Hy. rewrite bl_params_eq in H by exact Hy. cbn [bindR] in H. apply finite_if_inv in H. destruct H as [_ H].
  inversion_clear H as [|? ? H1 H2]. inversion_clear H2 as [|? ? H3 _]. repeat split; try assumption; apply Hy.
Qed.
Lemma kn_cov_dom c G Cc o x g : kn_cov c G Cc o x = Ok g -> bl_dom c G o x.
Proof.
  unfold kn_cov. destruct (mo_sys o) eqn:Hs; try discriminate. intros H. assert (H' := H). apply bindR_Ok in H'. destruct H' as [y [Hy _]].
  apply kn_params_ok in Hy. rewrite kn_params_eq in H by exact Hy. cbn [bindR] in H. apply finite_if_inv in H. destruct H as [_ H].
  inversion_clear H as [|? ? H1 H2]. inversion_clear H2 as [|? ? H3 _]. repeat split; try assumption; apply Hy.
Qed.

(** ** Gradients *)
(** the correct [1,3,3] entry of the Kerr derivative array *)
Definition kerr_133 (rs al sg r th : R) : R := (-2 * r - (al * sin th) ^ 2 * (rs * (sg - r * (2 * r)) / sg ^ 2)) * sin th ^ 2.
Definition kerr_dg_true (c rs al sg dl r th : R) : arr3 := set3 (kerr_dg c rs al sg dl r th) 1 3 3 (kerr_133 rs al sg r th).

Lemma bl_path c G o p t v : bl_dom c G o (p t) -> has_velocity p t v ->
  locally t (fun s => bl_dom c G o (p s))
  /\ is_derive (fun s => sg_of (al_of c G o) (c1 (p s)) (c2 (p s))) t
       (2 * c1 (p t) * c1 v + - (al_of c G o ^ 2) * (2 * sin (c2 (p t)) * cos (c2 (p t))) * c2 v)
  /\ is_derive (fun s => dl_of (sch_rad c G o) (al_of c G o) (c1 (p s))) t ((2 * c1 (p t) - sch_rad c G o) * c1 v).
Proof.
  intros [H1 [H2 [H3 H4]]] Hv. assert (Dr := path_r p t v Hv). assert (Dt := path_th p t v Hv).
  assert (DS : is_derive (fun s => sg_of (al_of c G o) (c1 (p s)) (c2 (p s))) t
       (2 * c1 (p t) * c1 v + - (al_of c G o ^ 2) * (2 * sin (c2 (p t)) * cos (c2 (p t))) * c2 v)).
  { unfold sg_of. D_auto. simpl INR; simpl pred. ring. }
  assert (DD : is_derive (fun s => dl_of (sch_rad c G o) (al_of c G o) (c1 (p s))) t ((2 * c1 (p t) - sch_rad c G o) * c1 v)).
  { unfold dl_of. D_auto. simpl INR; simpl pred. ring. }
  split; [|split; assumption].
  assert (LS := locally_nonzero _ _ (D_continuous _ _ _ DS) H3). assert (LD := locally_nonzero _ _ (D_continuous _ _ _ DD) H4).
  generalize (filter_and _ _ LS LD). apply filter_imp. intros s [A B]. unfold bl_dom. auto.
Qed.

Section Deriv.
Variables (c rs al : R) (Sg Dl r th : R -> R) (t vr vth : R).
Hypotheses (Dr : is_derive r t vr) (Dt : is_derive th t vth)
  (DS : is_derive Sg t (2 * r t * vr + - (al ^ 2) * (2 * sin (th t) * cos (th t)) * vth))
  (DD : is_derive Dl t ((2 * r t - rs) * vr)) (HS : Sg t <> 0) (HD : Dl t <> 0).
Lemma kerr_deriv i j : (i < 4)%nat -> (j < 4)%nat ->
  is_derive (fun s => mnth (kerr_g c rs al (Sg s) (Dl s) (r s) (th s)) i j) t
    (kerr_dg_true c rs al (Sg t) (Dl t) (r t) (th t) 1%nat i j * vr + kerr_dg_true c rs al (Sg t) (Dl t) (r t) (th t) 2%nat i j * vth).
Proof.
  intros Hi Hj.
  idx4 i Hi; (idx4 j Hj);
  cbv [kerr_dg_true kerr_133 kerr_dg set3 set3s zeros3 mnth q4nth kerr_g Nat.eqb andb]; cbn [c0 c1 c2 c3];
  rewrite ?sin_2a; D_auto; try assumption; simpl INR; simpl pred; try ring; field; repeat split; assumption.
Qed.
Lemma kn_deriv i j : (i < 4)%nat -> (j < 4)%nat ->
  is_derive (fun s => mnth (kn_g c al (Sg s) (Dl s) (r s) (th s)) i j) t
    (kn_dg c rs al (Sg t) (Dl t) (r t) (th t) 1%nat i j * vr + kn_dg c rs al (Sg t) (Dl t) (r t) (th t) 2%nat i j * vth).
Proof.
  intros Hi Hj.
  idx4 i Hi; (idx4 j Hj);
  cbv [kn_dg set3 set3s zeros3 mnth q4nth kn_g Nat.eqb andb]; cbn [c0 c1 c2 c3];
  rewrite ?sin_2a; D_auto; try assumption; simpl INR; simpl pred; try ring; field; repeat split; assumption.
Qed.
End Deriv.

Lemma kerr_dg_0 c rs al sg dl r th i j : kerr_dg_true c rs al sg dl r th 0%nat i j = 0 /\ kerr_dg_true c rs al sg dl r th 3%nat i j = 0.
Proof. split; reflexivity. Qed.
Lemma kn_dg_0 c rs al sg dl r th i j : kn_dg c rs al sg dl r th 0%nat i j = 0 /\ kn_dg c rs al sg dl r th 3%nat i j = 0.
Proof. split; reflexivity. Qed.

Lemma kerr_gradient c G Cc o x : bl_dom c G o x -> is_gradient (kerr_cov c G Cc o) x
  (kerr_dg_true c (sch_rad c G o) (al_of c G o) (sg_of (al_of c G o) (c1 x) (c2 x)) (dl_of (sch_rad c G o) (al_of c G o) (c1 x)) (c1 x) (c2 x)).
Proof.
  intros Hd p t v Hp Hv. rewrite <- Hp in *. clear x Hp.
  destruct (bl_path c G o p t v Hd Hv) as [L [DS DD]].
  assert (Dr := path_r p t v Hv). assert (Dt := path_th p t v Hv).
  split; [revert L; apply filter_imp; intros s E; rewrite (kerr_cov_eq c G Cc o (p s) E); eauto|].
  intros i j Hi Hj. destruct Hd as [_ [_ [H3 H4]]].
  apply D_loc with (f := fun s => mnth (kerr_g c (sch_rad c G o) (al_of c G o) (sg_of (al_of c G o) (c1 (p s)) (c2 (p s)))
     (dl_of (sch_rad c G o) (al_of c G o) (c1 (p s))) (c1 (p s)) (c2 (p s))) i j).
  { revert L; apply filter_imp; intros s E. rewrite (kerr_cov_eq c G Cc o (p s) E). reflexivity. }
  eapply D_eq.
  - apply (kerr_deriv c (sch_rad c G o) (al_of c G o) _ _ _ _ t _ _ Dr Dt DS DD H3 H4 i j Hi Hj).
  - unfold sum4. destruct (kerr_dg_0 c (sch_rad c G o) (al_of c G o) (sg_of (al_of c G o) (c1 (p t)) (c2 (p t)))
      (dl_of (sch_rad c G o) (al_of c G o) (c1 (p t))) (c1 (p t)) (c2 (p t)) i j) as [E0 E3].
    rewrite E0, E3. cbn [q4nth]. ring.
Qed.
Lemma kn_gradient c G Cc o x : bl_dom c G o x -> is_gradient (kn_cov c G Cc o) x
  (kn_dg c (sch_rad c G o) (al_of c G o) (sg_of (al_of c G o) (c1 x) (c2 x)) (dl_of (sch_rad c G o) (al_of c G o) (c1 x)) (c1 x) (c2 x)).
Proof.
  intros Hd p t v Hp Hv. rewrite <- Hp in *. clear x Hp.
  destruct (bl_path c G o p t v Hd Hv) as [L [DS DD]].
  assert (Dr := path_r p t v Hv). assert (Dt := path_th p t v Hv).
  split; [revert L; apply filter_imp; intros s E; rewrite (kn_cov_eq c G Cc o (p s) E); eauto|].
  intros i j Hi Hj. destruct Hd as [_ [_ [H3 H4]]].
  apply D_loc with (f := fun s => mnth (kn_g c (al_of c G o) (sg_of (al_of c G o) (c1 (p s)) (c2 (p s)))
     (dl_of (sch_rad c G o) (al_of c G o) (c1 (p s))) (c1 (p s)) (c2 (p s))) i j).
  { revert L; apply filter_imp; intros s E. rewrite (kn_cov_eq c G Cc o (p s) E). reflexivity. }
  eapply D_eq.
  - apply (kn_deriv c (sch_rad c G o) (al_of c G o) _ _ _ _ t _ _ Dr Dt DS DD H3 H4 i j Hi Hj).
  - unfold sum4. destruct (kn_dg_0 c (sch_rad c G o) (al_of c G o) (sg_of (al_of c G o) (c1 (p t)) (c2 (p t)))
      (dl_of (sch_rad c G o) (al_of c G o) (c1 (p t))) (c1 (p t)) (c2 (p t)) i j) as [E0 E3].
    rewrite E0, E3. cbn [q4nth]. ring.
Qed.

(** ** C38: the sparse loops compute the full sum *)
Definition blk2 (i j : nat) : bool := Nat.eqb i j || (Nat.eqb i 0 && Nat.eqb j 3) || (Nat.eqb i 3 && Nat.eqb j 0).
Definition blk3 (k i j : nat) : bool := (Nat.eqb k 1 || Nat.eqb k 2) && blk2 i j.
(** a metric of the Kerr block form: depends on x^1, x^2 only, couples only t and phi *)
Definition block_contra (gc : M4) : Prop := forall i j, (i < 4)%nat -> (j < 4)%nat -> blk2 i j = false -> mnth gc i j = 0.
Definition block_grad (dg : arr3) : Prop :=
  (forall k i j, (k < 4)%nat -> (i < 4)%nat -> (j < 4)%nat -> blk3 k i j = false -> dg k i j = 0)
  /\ (forall k i j, (k < 4)%nat -> (i < 4)%nat -> (j < 4)%nat -> dg k i j = dg k j i).

Lemma sparse_complete gc dg : block_contra gc -> block_grad dg -> eq3 (bl_ch gc dg) (levi_civita gc dg).
Proof.
  intros Hg [Hz Hs] i k l Hi Hk Hl.
  assert (Z : forall k i j, blk3 k i j = false -> Nat.ltb k 4 && Nat.ltb i 4 && Nat.ltb j 4 = true -> dg k i j = 0).
  { intros k0 i0 j0 A B. apply Hz; try assumption; rewrite !andb_true_iff, !Nat.ltb_lt in B; lia. }
  assert (Zg : forall i j, blk2 i j = false -> Nat.ltb i 4 && Nat.ltb j 4 = true -> mnth gc i j = 0).
  { intros i0 j0 A B. apply Hg; try assumption; rewrite !andb_true_iff, !Nat.ltb_lt in B; lia. }
  assert (S1 : dg 1%nat 3%nat 0%nat = dg 1%nat 0%nat 3%nat) by (apply Hs; lia).
  assert (S2 : dg 2%nat 3%nat 0%nat = dg 2%nat 0%nat 3%nat) by (apply Hs; lia).
  clear Hg Hz Hs. unfold levi_civita.
  idx4 i Hi; (idx4 k Hk); (idx4 l Hl);
  cbv [bl_ch slice firstn skipn nonzero_list fold_left set3 set3s zeros3 Nat.eqb andb sum4]; rewrite ?S1, ?S2;
  repeat match goal with |- context [dg ?a ?b ?d] => rewrite (Z a b d eq_refl eq_refl) end;
  repeat match goal with |- context [mnth gc ?a ?b] => rewrite (Zg a b eq_refl eq_refl) end; ring.
Qed.

Lemma nonzero_list_exact : (forall t, In t nonzero_list <-> In t nonzero_christoffels) /\ NoDup nonzero_list /\ length nonzero_list = 32%nat.
Proof.
  assert (E : nonzero_christoffels = 
   [(0,0,1);(0,0,2);(0,1,0);(0,1,3);(0,2,0);(0,2,3);(0,3,1);(0,3,2);(1,0,0);(1,0,3);(1,1,1);(1,1,2);(1,2,1);(1,2,2);(1,3,0);(1,3,3);
    (2,0,0);(2,0,3);(2,1,1);(2,1,2);(2,2,1);(2,2,2);(2,3,0);(2,3,3);(3,0,1);(3,0,2);(3,1,0);(3,1,3);(3,2,0);(3,2,3);(3,3,1);(3,3,2)]%nat)
   by reflexivity.
  split; [|split; [|reflexivity]].
  - intros t. rewrite E. unfold nonzero_list. simpl. tauto.
  - unfold nonzero_list. repeat constructor; simpl; intuition congruence.
Qed.
(** every index triple outside the list carries a vanishing symbol, for every metric of the block form *)
Lemma nonzero_list_sound gc dg i k l : block_contra gc -> block_grad dg -> (i < 4)%nat -> (k < 4)%nat -> (l < 4)%nat ->
  ~ In (i, k, l) nonzero_list -> levi_civita gc dg i k l = 0.
Proof.
  intros Hg Hd Hi Hk Hl N. rewrite <- sparse_complete by assumption.
  idx4 i Hi; (idx4 k Hk); (idx4 l Hl);
  try (exfalso; apply N; unfold nonzero_list; simpl; tauto); reflexivity.
Qed.
