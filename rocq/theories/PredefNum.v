(** C108: the symbolic predefined black holes, evaluated, are the numeric metric classes and the metrics of einsteinpy.geodesic. *)
From Coq Require Import String Ascii Reals List Arith Lia Lra.
From Coquelicot Require Import Coquelicot.
From Verif Require Import Base Calc CoordModel ConvModel CoordProofs2 MetricModel MetricSpec MetricProofs MetricProofs2 MetricProofs3 MetricProofs4 MetricProofs6 MetricUnify.
From Verif Require Import SymAlg SymModel ExprModel PredefModel PredefBridge PredefProofs PredefProofs2 PredefKerr PredefKN PredefFinal.
Import ListNotations.
Open Scope R_scope.

(** the four coordinates of a valuation *)
Definition at4 (p : nat -> R) : V4 := mkQ4 (p 0%nat) (p 1%nat) (p 2%nat) (p 3%nat).
(** what ChristoffelSymbols.from_metric returns, evaluated *)
Definition has_christoffels U simp minv G (f : nat -> nat -> nat -> (nat -> R) -> R) : Prop :=
  exists ch, christoffels_from_metric (metric_of U simp minv G) = Ok ch /\
    forall i j k p, (i < 4)%nat -> (j < 4)%nat -> (k < 4)%nat -> U p -> ev U (t_arr ch [i; j; k]) p = f i j k p.
Lemma of_table_ch U G Gi T simp minv : table U G Gi T -> inverts U simp minv G -> has_christoffels U simp minv G (fun i j k p => eval (T i j k) p).
Proof.
  intros [O [WG [WGi [WT [SG [IG CT]]]]]] [HS [HM [gi Hgi]]].
  destruct (bridge U simp minv O HS HM G Gi T WG WGi WT SG IG CT gi Hgi) as [ch [r [rc [sc [E1 [_ [_ [_ [V1 _]]]]]]]]].
  exists ch. split; assumption.
Qed.

Lemma at4_upd p k s : (k < 4)%nat -> at4 (upd p k s) = MetricSpec.upd (at4 p) k s.
Proof. intros H. c4 k H; reflexivity. Qed.
Lemma at4_nth p k : (k < 4)%nat -> q4nth (at4 p) k = p k.
Proof. intros H. c4 k H; reflexivity. Qed.
Lemma upd_upd p k s t i : upd (upd p k s) k t i = upd p k t i.
Proof. unfold upd. destruct (Nat.eqb k i); reflexivity. Qed.

(** a parameter does not depend on the coordinates *)
Lemma param_upd c p k s : param c -> (k < 4)%nat -> eval c (upd p k s) = eval c p.
Proof.
  intros [W D] Hk. rewrite <- (eval_ext c (upd p k (p k)) p) by (intros i; apply upd_same).
  assert (Hd : forall u, is_derive (fun u => eval c (upd p k u)) u 0) by (intros u; rewrite <- (D k (upd p k u) Hk); apply diff_correct, W).
  destruct (Rtotal_order s (p k)) as [H|[H|H]].
  - apply (eq_is_derive (fun u => eval c (upd p k u)) s (p k)); [intros; apply Hd|exact H].
  - rewrite H. reflexivity.
  - symmetry. apply (eq_is_derive (fun u => eval c (upd p k u)) (p k) s); [intros; apply Hd|exact H].
Qed.

(** a numeric metric that is kap times the evaluated symbolic one has the same connection *)
Section S.
Variables (U : (nat -> R) -> Prop) (G Gi : emat) (T : nat -> nat -> nat -> expr) (cov : V4 -> Res M4) (kap : R) (p : nat -> R).
Hypotheses (HT : table U G Gi T) (Hk : kap <> 0) (Hp : U p).
Hypothesis Hcov : forall k s, (k < 4)%nat -> U (upd p k s) -> exists g, cov (at4 (upd p k s)) = Ok g /\ forall i j, (i < 4)%nat -> (j < 4)%nat -> mnth g i j = kap * eval (G i j) (upd p k s).

Lemma sn_here : exists g, cov (at4 p) = Ok g /\ forall i j, (i < 4)%nat -> (j < 4)%nat -> mnth g i j = kap * eval (G i j) p.
Proof.
  assert (Hu : U (upd p 0 (p 0%nat))). { destruct HT as [O _]. apply (locally_singleton (p 0%nat) (fun x => U (upd p 0 x))). apply O. exact Hp. }
  destruct (Hcov 0 (p 0%nat) ltac:(lia) Hu) as (g & E & V). exists g. split; [exact E|].
  intros i j Hi Hj. rewrite V by assumption. f_equal. apply eval_ext. intros m. apply upd_same.
Qed.
Lemma sn_partial k i j : (k < 4)%nat -> (i < 4)%nat -> (j < 4)%nat ->
  is_derive (fun s => entry (cov (MetricSpec.upd (at4 p) k s)) i j) (q4nth (at4 p) k) (kap * eval (ediff k (G i j)) p).
Proof.
  intros K Hi Hj. rewrite at4_nth by exact K. destruct HT as [O [WG _]].
  apply (is_derive_ext_loc (fun s => kap * eval (G i j) (upd p k s))).
  - generalize (O p k Hp). apply filter_imp. intros s Hs. destruct (Hcov k s K Hs) as (g & E & V). rewrite <- at4_upd by exact K. rewrite E. cbn [entry]. symmetry. apply V; assumption.
  - assert (Hu : U (upd p k (p k))) by (apply (locally_singleton (p k) (fun x => U (upd p k x))); apply O; exact Hp).
    assert (D := diff_correct k (G i j) p (p k) (WG i j Hi Hj _ Hu)). rewrite (eval_ext (ediff k (G i j)) _ p) in D by (intros m; apply upd_same).
    apply (is_derive_scal (fun s => eval (G i j) (upd p k s)) (p k) kap). exact D.
Qed.
Lemma sn_inverse g gi : cov (at4 p) = Ok g -> MetricSpec.is_inverse g gi -> forall i j, (i < 4)%nat -> (j < 4)%nat -> mnth gi i j = / kap * eval (Gi i j) p.
Proof.
  intros E I. destruct sn_here as (g' & E' & V). rewrite E in E'. apply Ok_inj in E'. subst g'.
  destruct HT as [_ [_ [_ [_ [SG [IG _]]]]]].
  assert (L := rinv_linv (fun i j => eval (G i j) p) (fun i j => eval (Gi i j) p) (fun i j Hi Hj => SG i j p Hi Hj Hp) (fun i j Hi Hj => IG i j p Hi Hj Hp)).
  assert (I2 : MetricSpec.is_inverse g (mtab (fun i j => / kap * eval (Gi i j) p))).
  { assert (Id : forall i j, (i < 4)%nat -> (j < 4)%nat -> mnth id4 i j = if Nat.eqb i j then 1 else 0) by (intros i j Hi Hj; unfold id4; rewrite mnth_tab by assumption; reflexivity).
    split; apply M4_eq; intros i j Hi Hj; rewrite mm_entry by assumption; rewrite Id by assumption; unfold sum4; rewrite !mnth_tab by (lia || assumption); rewrite !V by (lia || assumption).
    - rewrite <- (IG i j p Hi Hj Hp). unfold rs4. field. exact Hk.
    - rewrite <- (L i j Hi Hj). unfold rs4. field. exact Hk. }
  rewrite (inverse_unique g gi _ I I2). intros i j Hi Hj. rewrite mnth_tab by assumption; reflexivity.
Qed.
Lemma sn_connection ch : is_connection cov (at4 p) ch -> forall i j k, (i < 4)%nat -> (j < 4)%nat -> (k < 4)%nat -> ch i j k = eval (T i j k) p.
Proof.
  intros (g & gi & dg & E & I & Gr & C) i j k Hi Hj Hk'. rewrite C by assumption.
  assert (P := gradient_partials _ _ _ Gr).
  assert (D : forall a b d, (a < 4)%nat -> (b < 4)%nat -> (d < 4)%nat -> dg a b d = kap * eval (ediff a (G b d)) p).
  { intros a b d Ha Hb Hd. assert (A1 := is_derive_unique _ _ _ (P a b d Ha Hb Hd)). assert (A2 := is_derive_unique _ _ _ (sn_partial a b d Ha Hb Hd)). rewrite <- A1. exact A2. }
  assert (Iv := sn_inverse g gi E I). destruct HT as [_ [_ [_ [_ [_ [_ CT]]]]]].
  rewrite (CT i j k p Hi Hj Hk' Hp). unfold levi_civita, sum4, rs4. rewrite !D by (lia || assumption). rewrite !Iv by (lia || assumption). field. exact Hk.
Qed.
End S.

(** ** Schwarzschild *)
Lemma sch_values c sch Gv o p : eval sch p = sch_rad (eval c p) Gv o -> mo_sys o = Sph -> sch_chart c sch p ->
  exists g, sch_cov (eval c p) Gv o (at4 p) = Ok g /\ forall i j, (i < 4)%nat -> (j < 4)%nat -> mnth g i j = eval c p ^ 2 * eval (Schwarzschild c sch i j) p.
Proof.
  intros Es So [[H1 H2] [H3 H4]].
  assert (H5 : 1 - eval sch p / p 1%nat <> 0). { intros E. apply H3. replace (p 1%nat - eval sch p) with (p 1%nat * (1 - eval sch p / p 1%nat)) by (field; exact H2). rewrite E. ring. }
  exists (sch_g (eval c p) (eval sch p) (p 1%nat) (p 2%nat)). split.
  - unfold sch_cov. rewrite So. cbn [at4 c1 c2]. rewrite <- Es. apply finite_if_ok. repeat constructor; assumption.
  - intros i j Hi Hj. assert (H6 : p 1%nat - eval sch p <> 0) by exact H3. c4 i Hi; c4 j Hj; unfold Schwarzschild; evc; cbv [sch_g mnth q4nth]; cbn [c0 c1 c2 c3]; field; repeat split; assumption.
Qed.
Theorem sch_metric_agrees c sch Gv o p : param c -> param sch -> eval sch p = sch_rad (eval c p) Gv o -> mo_sys o = Sph -> sch_chart c sch p ->
  exists g, sch_cov (eval c p) Gv o (at4 p) = Ok g /\ forall i j, (i < 4)%nat -> (j < 4)%nat -> mnth g i j = eval c p ^ 2 * eval (Schwarzschild c sch i j) p.
Proof. intros _ _. apply sch_values. Qed.
Theorem sch_christoffels_agree c sch simp minv : param c -> param sch -> inverts (sch_chart c sch) simp minv (Schwarzschild c sch) ->
  exists chs, christoffels_from_metric (metric_of (sch_chart c sch) simp minv (Schwarzschild c sch)) = Ok chs /\
  forall Gv o p, mo_sys o = Sph -> sch_chart c sch p -> eval sch p = sch_rad (eval c p) Gv o ->
  exists ch, sch_christoffels (eval c p) Gv o (at4 p) = Ok ch /\
  forall i j k, (i < 4)%nat -> (j < 4)%nat -> (k < 4)%nat -> ch i j k = ev _ (t_arr chs [i; j; k]) p.
Proof.
  intros Pc Ps HI. assert (Tb := sch_table c sch Pc Ps). destruct (of_table_ch _ _ _ _ _ _ Tb HI) as (chs & E & V). exists chs. split; [exact E|].
  intros Gv o p So Hp Es. assert (Hp' := Hp). destruct Hp' as [[H1 H2] [H3 H4]].
  destruct (proj2 (sch_christoffels_defined (eval c p) Gv o (at4 p))) as [ch Ech].
  { split; [exact So|]. cbn [at4 c1 c2]. rewrite <- Es. split; [exact H2|]. split; [lra|exact H4]. }
  exists ch. split; [exact Ech|]. intros i j k Hi Hj Hk. rewrite V by assumption.
  apply (sn_connection _ _ _ _ (sch_cov (eval c p) Gv o) (eval c p ^ 2) p Tb); try assumption.
  - apply pow_nonzero. exact H1.
  - intros m s Hm Hs. rewrite <- (param_upd c p m s Pc Hm). apply sch_values; [|exact So|exact Hs]. rewrite !param_upd by assumption. exact Es.
  - apply sch_connection; assumption.
Qed.

(** ** Kerr and Kerr-Newman *)
Lemma bl_dom_of c Gv o a sch q p : mo_sys o = BL -> valid_spin o -> eval sch p = sch_rad c Gv o -> eval a p = al_of c Gv o -> eval q p = 0 ->
  p 1%nat * p 1%nat + eval a p * eval a p * (cos (p 2%nat) * cos (p 2%nat)) <> 0 -> p 1%nat * p 1%nat - eval sch p * p 1%nat + eval a p * eval a p + eval q p <> 0 -> bl_dom c Gv o (at4 p).
Proof.
  intros So Sp Es Ea Eq H1 H2. split; [exact So|]. split; [exact Sp|]. cbn [at4 c1 c2]. rewrite <- Ea, <- Es. unfold sg_of, dl_of. split; intros E; [apply H1|apply H2; rewrite Eq]; (etransitivity; [|exact E]); ring.
Qed.
Lemma kn_values c G eps_0 sch a Q Gv Cv o p : mo_sys o = BL -> valid_spin o -> eval sch p = sch_rad (eval c p) Gv o -> eval a p = al_of (eval c p) Gv o ->
  eval (rQsqE c G eps_0 Q) p = 0 -> kn_chart c G eps_0 sch a Q p ->
  exists g, kn_cov (eval c p) Gv Cv o (at4 p) = Ok g /\ forall i j, (i < 4)%nat -> (j < 4)%nat -> mnth g i j = eval c p ^ 2 * eval (KerrNewman c G eps_0 sch a Q i j) p.
Proof.
  intros So Sp Es Ea Eq [[H1 H2] [H3 [H4 H5]]].
  rewrite (kn_cov_eq _ _ _ _ _ (bl_dom_of (eval c p) Gv o a sch (rQsqE c G eps_0 Q) p So Sp Es Ea Eq H4 H5)). eexists. split; [reflexivity|].
  rewrite <- Es, <- Ea. intros i j Hi Hj. rewrite kn_is_q. generalize dependent (rQsqE c G eps_0 Q). intros q Eq H5.
  c4 i Hi; c4 j Hj; unfold kn_q, SigmaS, sg_of, dl_of; evc; cbv [kn_g mnth q4nth]; cbn [at4 c0 c1 c2 c3]; rewrite ?Eq; try ring; rewrite Eq in H5; rewrite Rplus_0_r in H5.
  all: try (field; repeat split; try assumption; try (intros E; apply H4; (etransitivity; [|exact E]); ring); try (intros E; apply H5; (etransitivity; [|exact E]); ring)).
  replace ((eval a p * sin (p 2%nat)) ^ 2) with (eval a p * eval a p * (1 - cos (p 2%nat) * cos (p 2%nat))) by (rewrite <- sc2; ring).
  field. repeat split; first [exact H4|intros E; apply H4; (etransitivity; [|exact E]); ring].
Qed.

Theorem kn_christoffels_agree c G eps_0 sch a Q simp minv : param c -> param G -> param eps_0 -> param sch -> param a -> param Q ->
  inverts (kn_chart c G eps_0 sch a Q) simp minv (KerrNewman c G eps_0 sch a Q) ->
  exists chs, christoffels_from_metric (metric_of (kn_chart c G eps_0 sch a Q) simp minv (KerrNewman c G eps_0 sch a Q)) = Ok chs /\
  forall Gv Cv o p, mo_sys o = BL -> valid_spin o -> kn_chart c G eps_0 sch a Q p -> eval sch p = sch_rad (eval c p) Gv o -> eval a p = al_of (eval c p) Gv o -> eval Q p = 0 ->
  exists ch, kn_christoffels (eval c p) Gv Cv o (at4 p) = Ok ch /\
  forall i j k, (i < 4)%nat -> (j < 4)%nat -> (k < 4)%nat -> ch i j k = ev _ (t_arr chs [i; j; k]) p.
Proof.
  intros Pc PG Pe Ps Pa PQ HI. assert (Tb := kn_table c G eps_0 sch a Q Pc PG Pe Ps Pa PQ). destruct (of_table_ch _ _ _ _ _ _ Tb HI) as (chs & E & V). exists chs. split; [exact E|].
  intros Gv Cv o p So Sp Hp Es Ea EQ. assert (Hp' := Hp). destruct Hp' as [[H1 H2] [H3 [H4 H5]]].
  assert (Eq : forall u, eval Q u = 0 -> eval (rQsqE c G eps_0 Q) u = 0) by (intros u Hu; unfold rQsqE; evc; rewrite Hu; unfold Rdiv; ring).
  assert (D := bl_dom_of (eval c p) Gv o a sch (rQsqE c G eps_0 Q) p So Sp Es Ea (Eq p EQ) H4 H5).
  destruct (proj2 (kn_christoffels_defined (eval c p) Gv Cv o (at4 p) H1)) as [ch Ech]; [split; [exact D|exact H3]|].
  exists ch. split; [exact Ech|]. intros i j k Hi Hj Hk. rewrite V by assumption.
  apply (sn_connection _ _ _ _ (kn_cov (eval c p) Gv Cv o) (eval c p ^ 2) p Tb); try assumption.
  - apply pow_nonzero. exact H1.
  - intros m s Hm Hs. rewrite <- (param_upd c p m s Pc Hm). apply kn_values; try assumption; [| |apply Eq]; rewrite !param_upd by assumption; assumption.
  - apply kn_connection. exact Ech.
Qed.
(** the numeric class ignores the charge (C37): the exact difference *)
Theorem kn_charge_difference c G eps_0 sch a Q Gv Cv o p : mo_sys o = BL -> valid_spin o -> eval c p <> 0 -> eval sch p = sch_rad (eval c p) Gv o -> eval a p = al_of (eval c p) Gv o ->
  bl_dom (eval c p) Gv o (at4 p) -> exists g, kn_cov (eval c p) Gv Cv o (at4 p) = Ok g /\
  eval c p ^ 2 * eval (KerrNewman c G eps_0 sch a Q 0%nat 0%nat) p - mnth g 0 0 = eval c p ^ 2 * eval (rQsqE c G eps_0 Q) p / (p 1%nat ^ 2 + (eval a p * cos (p 2%nat)) ^ 2).
Proof.
  intros So Sp H1 Es Ea D. rewrite (kn_cov_eq _ _ _ _ _ D). eexists. split; [reflexivity|]. destruct D as (_ & _ & H4 & _). revert H4.
  rewrite <- Es, <- Ea. rewrite kn_is_q. generalize (rQsqE c G eps_0 Q). intros q. unfold kn_q, SigmaS, sg_of, dl_of; evc; cbv [kn_g mnth q4nth]; cbn [at4 c0 c1 c2 c3]. intros H4.
  replace ((eval a p * sin (p 2%nat)) ^ 2) with (eval a p * eval a p * (1 - cos (p 2%nat) * cos (p 2%nat))) by (rewrite <- sc2; ring).
  field. repeat split; first [exact H4|intros E; apply H4; (etransitivity; [|exact E]); ring].
Qed.
Lemma kerr_values c sch a Gv Cv o p : mo_sys o = BL -> valid_spin o -> eval sch p = sch_rad (eval c p) Gv o -> eval a p = al_of (eval c p) Gv o -> kerr_chart c sch a p ->
  exists g, kerr_cov (eval c p) Gv Cv o (at4 p) = Ok g /\ forall i j, (i < 4)%nat -> (j < 4)%nat -> mnth g i j = eval c p ^ 2 * eval (Kerr c sch a i j) p.
Proof.
  intros So Sp Es Ea [[H1 H2] [H4 H5]].
  assert (D : bl_dom (eval c p) Gv o (at4 p)). { apply (bl_dom_of (eval c p) Gv o a sch E0 p So Sp Es Ea eq_refl H4). unfold E0; cbn [eval]. rewrite Rplus_0_r. exact H5. }
  rewrite (kerr_cov_eq _ _ _ _ _ D). eexists. split; [reflexivity|].
  rewrite <- Es, <- Ea. intros i j Hi Hj.
  c4 i Hi; c4 j Hj; unfold Kerr, SigmaS, sg_of, dl_of; evc; cbv [kerr_g mnth q4nth]; cbn [at4 c0 c1 c2 c3]; try ring.
  all: try (field; repeat split; try assumption; try (intros E; apply H4; (etransitivity; [|exact E]); ring); try (intros E; apply H5; (etransitivity; [|exact E]); ring)).
Qed.
Theorem kerr_christoffels_agree c sch a simp minv : param c -> param sch -> param a ->
  inverts (kerr_chart c sch a) simp minv (Kerr c sch a) ->
  exists chs, christoffels_from_metric (metric_of (kerr_chart c sch a) simp minv (Kerr c sch a)) = Ok chs /\
  forall Gv Cv o p, mo_sys o = BL -> valid_spin o -> kerr_chart c sch a p -> eval sch p = sch_rad (eval c p) Gv o -> eval a p = al_of (eval c p) Gv o ->
  (exists ch, kn_christoffels (eval c p) Gv Cv o (at4 p) = Ok ch /\ forall i j k, (i < 4)%nat -> (j < 4)%nat -> (k < 4)%nat -> ch i j k = ev _ (t_arr chs [i; j; k]) p) /\
  exists ch g gi, kerr_christoffels (eval c p) Gv Cv o (at4 p) = Ok ch /\ kerr_cov (eval c p) Gv Cv o (at4 p) = Ok g /\ MetricSpec.is_inverse g gi /\
  forall i j k, (i < 4)%nat -> (j < 4)%nat -> (k < 4)%nat ->
    ch i j k - ev _ (t_arr chs [i; j; k]) p = kerr_err (eval c p) Gv o (at4 p) * (mnth gi i 3 * (MetricUnify.kd j 1 * MetricUnify.kd k 3 + MetricUnify.kd j 3 * MetricUnify.kd k 1) - mnth gi i 1 * (MetricUnify.kd j 3 * MetricUnify.kd k 3)).
Proof.
  intros Pc Ps Pa HI. assert (Tb := kerr_table c sch a Pc Ps Pa). destruct (of_table_ch _ _ _ _ _ _ Tb HI) as (chs & E & V). exists chs. split; [exact E|].
  intros Gv Cv o p So Sp Hp Es Ea. assert (Hp' := Hp). destruct Hp' as [[H1 H3] [H4 H5]].
  assert (D : bl_dom (eval c p) Gv o (at4 p)). { apply (bl_dom_of (eval c p) Gv o a sch E0 p So Sp Es Ea eq_refl H4). unfold E0; cbn [eval]. rewrite Rplus_0_r. exact H5. }
  destruct (proj2 (kn_christoffels_defined (eval c p) Gv Cv o (at4 p) H1)) as [ch Ech]; [split; [exact D|exact H3]|].
  destruct (proj2 (kerr_christoffels_defined (eval c p) Gv Cv o (at4 p) H1)) as [ch' Ech']; [split; [exact D|exact H3]|].
  assert (A : forall i j k, (i < 4)%nat -> (j < 4)%nat -> (k < 4)%nat -> ch i j k = ev _ (t_arr chs [i; j; k]) p).
  { intros i j k Hi Hj Hk. rewrite V by assumption.
    apply (sn_connection _ _ _ _ (kerr_cov (eval c p) Gv Cv o) (eval c p ^ 2) p Tb); try assumption.
    - apply pow_nonzero. exact H1.
    - intros m s Hm Hs. rewrite <- (param_upd c p m s Pc Hm). apply kerr_values; try assumption; rewrite !param_upd by assumption; assumption.
    - apply (connection_ext (kn_cov (eval c p) Gv Cv o)); [intros y; symmetry; apply kerr_cov_is_kn|]. apply kn_connection. exact Ech. }
  split; [exists ch; split; [exact Ech|exact A]|].
  assert (SB : same_body o o) by (split; reflexivity).
  destruct (kerr_minus_kn (eval c p) Gv Cv o o (at4 p) ch' ch So SB Ech' Ech) as (g & gi & Eg & Ei & _ & F).
  exists ch', g, gi. split; [exact Ech'|]. split; [exact Eg|]. split; [exact Ei|]. intros i j k Hi Hj Hk. rewrite <- A by assumption. apply F; assumption.
Qed.
Lemma kerr_christoffels_iff c sch a simp minv : param c -> param sch -> param a ->
  inverts (kerr_chart c sch a) simp minv (Kerr c sch a) ->
  exists chs, christoffels_from_metric (metric_of (kerr_chart c sch a) simp minv (Kerr c sch a)) = Ok chs /\
  forall Gv Cv o p, mo_sys o = BL -> valid_spin o -> kerr_chart c sch a p -> eval sch p = sch_rad (eval c p) Gv o -> eval a p = al_of (eval c p) Gv o ->
  exists ch, kerr_christoffels (eval c p) Gv Cv o (at4 p) = Ok ch /\
  ((forall i j k, (i < 4)%nat -> (j < 4)%nat -> (k < 4)%nat -> ch i j k = ev _ (t_arr chs [i; j; k]) p) <-> kerr_err (eval c p) Gv o (at4 p) = 0).
Proof.
  intros Pc Ps Pa HI. destruct (kerr_christoffels_agree c sch a simp minv Pc Ps Pa HI) as (chs & E & V). exists chs. split; [exact E|].
  intros Gv Cv o p So Sp Hp Es Ea. destruct (V Gv Cv o p So Sp Hp Es Ea) as (_ & ch & g & gi & Ech & Eg & Ei & F). exists ch. split; [exact Ech|]. split.
  - intros A. assert (F1 := F 1%nat 3%nat 3%nat ltac:(lia) ltac:(lia) ltac:(lia)). rewrite A in F1 by lia. cbv [MetricUnify.kd Nat.eqb] in F1.
    assert (G1 : mnth gi 1 1 <> 0).
    { intros Z. destruct Ei as [Ei _]. assert (H11 := mm_entry g gi 1 1 ltac:(lia) ltac:(lia)). rewrite Ei in H11.
      assert (D := kerr_cov_dom _ _ _ _ _ _ Eg). rewrite kerr_cov_eq in Eg by exact D. apply Ok_inj in Eg. subst g. unfold sum4 in H11. rewrite Z in H11.
      cbv [kerr_g mnth q4nth id4 mtab q4tab Nat.eqb] in H11. cbn [c0 c1 c2 c3] in H11. lra. }
    assert (Z : kerr_err (eval c p) Gv o (at4 p) * mnth gi 1 1 = 0) by lra. apply Rmult_integral in Z. tauto.
  - intros Z i j k Hi Hj Hk. assert (F1 := F i j k Hi Hj Hk). rewrite Z in F1. lra.
Qed.

(** ** einsteinpy.geodesic: units G = c = M = 1, signature (-,+,+,+) *)
Lemma kn_symbolic_cov c G eps_0 sch a Q av Qv p : eval c p = 1 -> eval sch p = 2 -> eval a p = av -> eval (rQsqE c G eps_0 Q) p = Qv * Qv -> kn_chart c G eps_0 sch a Q p ->
  forall i j, (i < 4)%nat -> (j < 4)%nat -> eval (KerrNewman c G eps_0 sch a Q i j) p = - mnth (GeoUtilsSpec.kn_cov av Qv (p 1%nat) (p 2%nat)) i j.
Proof.
  intros Ec Es Ea Eq [_ [H3 [H4 H5]]] i j Hi Hj. subst av. rewrite kn_is_q. generalize dependent (rQsqE c G eps_0 Q). intros q Eq H5.
  rewrite Eq, Es in H5.
  c4 i Hi; c4 j Hj; unfold kn_q, SigmaS, GeoUtilsSpec.kn_cov, GeoUtilsSpec.SigmaS, GeoUtilsSpec.DeltaS; evc; cbv [mnth q4nth]; cbn [c0 c1 c2 c3]; rewrite ?Eq, ?Ec, ?Es; try ring.
  all: try (field; repeat split; assumption).
  rewrite (sc2 (p 2%nat)). field. assumption.
Qed.
(** m is the inverse of minus the evaluated symbolic metric *)
Definition inverts_at (m : M4) (G : emat) (p : nat -> R) : Prop := forall i j, (i < 4)%nat -> (j < 4)%nat ->
  rs4 (fun k => mnth m i k * - eval (G k j) p) = (if Nat.eqb i j then 1 else 0) /\ rs4 (fun k => - eval (G i k) p * mnth m k j) = (if Nat.eqb i j then 1 else 0).
Lemma inverts_of m n G p : GeoUtilsProofs.inverse_of m n -> (forall i j, (i < 4)%nat -> (j < 4)%nat -> eval (G i j) p = - mnth n i j) -> inverts_at m G p.
Proof.
  intros [I1 I2] E i j Hi Hj. assert (Id : mnth id4 i j = if Nat.eqb i j then 1 else 0) by (unfold id4; rewrite mnth_tab by assumption; reflexivity).
  unfold rs4. rewrite !E by (lia || assumption). rewrite <- Id. split; [rewrite <- I1|rewrite <- I2]; rewrite mm_entry by assumption; unfold sum4; ring.
Qed.
Theorem kn_geodesic_agrees c G eps_0 sch a Q av Qv p : eval c p = 1 -> eval sch p = 2 -> eval a p = av -> eval (rQsqE c G eps_0 Q) p = Qv * Qv -> kn_chart c G eps_0 sch a Q p ->
  exists m, GeoUtilsModel.metric_at (GeoUtilsModel.kerrnewmanE av Qv) (at4 p) = Ok m /\ inverts_at m (KerrNewman c G eps_0 sch a Q) p.
Proof.
  intros Ec Es Ea Eq Hp. assert (Hp' := Hp). destruct Hp' as [_ [H3 [H4 H5]]].
  destruct (GeoUtilsProofs.kn_metric_inverse av Qv (p 0%nat) (p 1%nat) (p 2%nat) (p 3%nat)) as (m & E & I).
  - unfold GeoUtilsSpec.SigmaS. rewrite <- Ea. exact H4.
  - unfold GeoUtilsSpec.DeltaS. rewrite <- Ea, <- Eq, <- Es. exact H5.
  - exact H3.
  - exists m. split; [exact E|]. apply (inverts_of _ _ _ _ I). apply (kn_symbolic_cov c G eps_0 sch a Q av Qv p); assumption.
Qed.
Theorem kerr_geodesic_agrees c sch a av p : eval c p = 1 -> eval sch p = 2 -> eval a p = av -> kerr_chart c sch a p ->
  exists m, GeoUtilsModel.metric_at (GeoUtilsModel.kerrE av) (at4 p) = Ok m /\ inverts_at m (Kerr c sch a) p.
Proof.
  intros Ec Es Ea [[H1 H3] [H4 H5]].
  assert (D : GeoUtilsSpec.DeltaS (p 1%nat) av 0 <> 0). { unfold GeoUtilsSpec.DeltaS. rewrite <- Ea, <- Es. intros E. apply H5. (etransitivity; [|exact E]). ring. }
  destruct (GeoUtilsProofs.kerr_metric_inverse av (p 0%nat) (p 1%nat) (p 2%nat) (p 3%nat)) as (m & E & I); [unfold GeoUtilsSpec.SigmaS; rewrite <- Ea; exact H4|exact D|exact H3|].
  exists m. split; [exact E|]. apply (inverts_of _ _ _ _ I). intros i j Hi Hj. subst av. unfold GeoUtilsSpec.DeltaS in D. rewrite Es in H5.
  c4 i Hi; c4 j Hj; unfold Kerr, SigmaS, GeoUtilsSpec.kn_cov, GeoUtilsSpec.SigmaS, GeoUtilsSpec.DeltaS; evc; cbv [mnth q4nth]; cbn [c0 c1 c2 c3]; rewrite ?Ec, ?Es; try ring; field; repeat split; assumption.
Qed.
Theorem sch_geodesic_agrees c sch p : eval c p = 1 -> eval sch p = 2 -> sch_chart c sch p ->
  exists m, GeoUtilsModel.metric_at GeoUtilsModel.schE (at4 p) = Ok m /\ inverts_at m (Schwarzschild c sch) p.
Proof.
  intros Ec Es [[H1 H2] [H3 H4]]. rewrite Es in H3.
  destruct (GeoUtilsProofs.sch_metric_inverse (p 0%nat) (p 1%nat) (p 2%nat) (p 3%nat)) as (m & E & I); [exact H2|lra|exact H4|].
  exists m. split; [exact E|]. apply (inverts_of _ _ _ _ I). intros i j Hi Hj.
  c4 i Hi; c4 j Hj; unfold Schwarzschild, GeoUtilsSpec.sch_cov; evc; cbv [mnth q4nth]; cbn [c0 c1 c2 c3]; rewrite ?Ec, ?Es; try ring; field; repeat split; assumption.
Qed.

(** ** where the numeric classes differ *)
Definition sixp : nat -> R := pt [0; 4; PI / 2; 0; 1; 2; 1 / 2].
Lemma kerr_agree_refuted : exists o p, mo_sys o = BL /\ valid_spin o /\ kerr_chart (EVar 4) (EVar 5) (EVar 6) p /\ eval (EVar 5) p = sch_rad (eval (EVar 4) p) 1 o /\ eval (EVar 6) p = al_of (eval (EVar 4) p) 1 o /\
  forall simp minv chs ch, inverts (kerr_chart (EVar 4) (EVar 5) (EVar 6)) simp minv (Kerr (EVar 4) (EVar 5) (EVar 6)) ->
  christoffels_from_metric (metric_of (kerr_chart (EVar 4) (EVar 5) (EVar 6)) simp minv (Kerr (EVar 4) (EVar 5) (EVar 6))) = Ok chs ->
  kerr_christoffels (eval (EVar 4) p) 1 1 o (at4 p) = Ok ch -> ch 1%nat 3%nat 3%nat <> ev _ (t_arr chs [1; 3; 3]%nat) p.
Proof.
  set (o := mkmobj NKerr BL (mkqty 1 1 DMass) (mkqty (1 / 2) 1 DOne) (mkqty 0 1 DCharge) (mkqty 0 1 DOne)).
  exists o, sixp. split; [reflexivity|]. split; [unfold valid_spin, o; cbn [mo_a q_val]; lra|].
  assert (Hc : kerr_chart (EVar 4) (EVar 5) (EVar 6) sixp). { unfold kerr_chart, sixp, pt. cbn [eval nth]. rewrite cos_PI2, sin_PI2. repeat split; lra. }
  assert (Es : eval (EVar 5) sixp = sch_rad (eval (EVar 4) sixp) 1 o). { unfold sch_rad, schwarzschild_radius, o, sixp, pt. cbn [eval nth prim mo_M q_val]. field. }
  assert (Ea : eval (EVar 6) sixp = al_of (eval (EVar 4) sixp) 1 o). { unfold al_of, o, sixp, pt. cbn [eval nth mo_a mo_M q_val]. field. }
  split; [exact Hc|]. split; [exact Es|]. split; [exact Ea|]. intros simp minv chs ch HI Ec Ek A.
  assert (So : mo_sys o = BL) by reflexivity. assert (Sp : valid_spin o) by (unfold valid_spin, o; cbn [mo_a q_val]; lra).
  destruct (kerr_christoffels_agree (EVar 4) (EVar 5) (EVar 6) simp minv) as (chs' & Ec' & V); try (apply param_var; lia); [exact HI|].
  rewrite Ec in Ec'. apply Ok_inj in Ec'. subst chs'. destruct (V 1 1 o sixp So Sp Hc Es Ea) as (_ & ch' & g & gi & Ech & Eg & Ei & F).
  rewrite Ek in Ech. apply Ok_inj in Ech. subst ch'. assert (F1 := F 1%nat 3%nat 3%nat ltac:(lia) ltac:(lia) ltac:(lia)). rewrite A in F1. cbv [MetricUnify.kd Nat.eqb] in F1.
  assert (G1 : mnth gi 1 1 <> 0).
  { intros Z. destruct Ei as [Ei _]. assert (H11 := mm_entry g gi 1 1 ltac:(lia) ltac:(lia)). rewrite Ei in H11.
    assert (D := kerr_cov_dom _ _ _ _ _ _ Eg). rewrite kerr_cov_eq in Eg by exact D. apply Ok_inj in Eg. subst g. unfold sum4 in H11. rewrite Z in H11.
    cbv [kerr_g mnth q4nth id4 mtab q4tab Nat.eqb] in H11. cbn [c0 c1 c2 c3] in H11. lra. }
  assert (Z : kerr_err (eval (EVar 4) sixp) 1 o (at4 sixp) * mnth gi 1 1 = 0) by lra. apply Rmult_integral in Z. destruct Z as [Z|Z]; [|exact (G1 Z)].
  revert Z. unfold kerr_err. rewrite <- Es, <- Ea. unfold at4, sixp, pt. cbn [eval nth c1 c2]. rewrite cos_PI2, sin_PI2. lra.
Qed.
Lemma kn_charge_refuted c G eps_0 sch a Q Gv Cv o p g : eval c p <> 0 -> eval sch p = sch_rad (eval c p) Gv o -> eval a p = al_of (eval c p) Gv o ->
  eval (rQsqE c G eps_0 Q) p <> 0 -> kn_cov (eval c p) Gv Cv o (at4 p) = Ok g -> mnth g 0 0 <> eval c p ^ 2 * eval (KerrNewman c G eps_0 sch a Q 0%nat 0%nat) p.
Proof.
  intros H1 Es Ea Hq Eg A. assert (D := kn_cov_dom _ _ _ _ _ _ Eg). assert (D' := D). destruct D' as (So & Sp & S4 & _).
  destruct (kn_charge_difference c G eps_0 sch a Q Gv Cv o p So Sp H1 Es Ea D) as (g' & Eg' & V). rewrite Eg in Eg'. apply Ok_inj in Eg'. subst g'. rewrite A in V.
  assert (S5 : p 1%nat ^ 2 + (eval a p * cos (p 2%nat)) ^ 2 <> 0) by (rewrite Ea; exact S4).
  assert (Z : eval c p ^ 2 * eval (rQsqE c G eps_0 Q) p = 0).
  { apply Rmult_eq_reg_r with (/ (p 1%nat ^ 2 + (eval a p * cos (p 2%nat)) ^ 2)); [|apply Rinv_neq_0_compat; exact S5]. unfold Rdiv in V. lra. }
  apply Rmult_integral in Z. destruct Z as [Z|Z]; [|exact (Hq Z)]. revert Z. apply pow_nonzero. exact H1.
Qed.
