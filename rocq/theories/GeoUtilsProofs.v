From Coq Require Import Reals List ZArith Lra Lia Bool.
From Coquelicot Require Import Coquelicot.
From Verif Require Import Base Calc DualModel DualSpec DualProofs GeoUtilsModel GeoUtilsSpec.
Open Scope R_scope.

(** ** Evaluating whole metrics *)
Lemma q4_cases (P : nat -> Prop) : P 0%nat -> P 1%nat -> P 2%nat -> P 3%nat -> forall i, (i < 4)%nat -> P i.
Proof. intros. destruct i as [|[|[|[|]]]]; auto; lia. Qed.

Lemma q4seq_map {A B} (f : A -> Res B) (g : nat -> B) (v : Q4 A) :
  (forall i, (i < 4)%nat -> f (q4nth v i) = Ok (g i)) -> q4seq (q4map f v) = Ok (q4tab g).
Proof.
  intros H. assert (H0 := H 0%nat ltac:(lia)). assert (H1 := H 1%nat ltac:(lia)).
  assert (H2 := H 2%nat ltac:(lia)). assert (H3 := H 3%nat ltac:(lia)).
  unfold q4seq, q4map, q4tab; simpl in *. rewrite H0, H1, H2, H3. reflexivity.
Qed.

Lemma q4seq_tab {A} (f : nat -> Res A) (g : nat -> A) :
  (forall i, (i < 4)%nat -> f i = Ok (g i)) -> q4seq (q4tab f) = Ok (q4tab g).
Proof.
  intros H. unfold q4seq, q4tab; simpl. rewrite !H by lia. reflexivity.
Qed.

Lemma q4nth_tab {A} (f : nat -> A) i : (i < 4)%nat -> q4nth (q4tab f) i = f i.
Proof. intros H; revert i H; apply q4_cases; reflexivity. Qed.
Lemma mnth_tab {A} (f : nat -> nat -> A) i j : (i < 4)%nat -> (j < 4)%nat -> mnth (mtab f) i j = f i j.
Proof. intros Hi Hj; unfold mnth, mtab. rewrite q4nth_tab by assumption. apply q4nth_tab; assumption. Qed.
Lemma mnth_tab' {A} (f : nat -> nat -> A) i j : (i < 4)%nat -> (j < 4)%nat ->
  mnth (q4tab (fun i => q4tab (f i))) i j = f i j.
Proof. exact (mnth_tab f i j). Qed.
Lemma mnth_map {A B} (f : A -> B) m i j : (i < 4)%nat -> (j < 4)%nat -> mnth (q4map (q4map f) m) i j = f (mnth m i j).
Proof. intros Hi Hj; revert i Hi; apply q4_cases; revert j Hj; apply q4_cases; reflexivity. Qed.

Lemma run_metric_Ok g env (h : nat -> nat -> pyval) :
  (forall i j, (i < 4)%nat -> (j < 4)%nat -> runP env (mnth g i j) = Ok (h i j)) ->
  run_metric g env = Ok (mtab h).
Proof.
  intros H. unfold run_metric, mtab. apply q4seq_map. intros i Hi.
  apply (q4seq_map (runP env) (h i)). intros j Hj. exact (H i j Hi Hj).
Qed.

Lemma metric_at_Ok g (q : V4) : metric_defined g (q4nth q) ->
  metric_at g q = Ok (metric_meaning g (q4nth q)).
Proof.
  intros H. unfold metric_at.
  rewrite (run_metric_Ok g _ (fun i j => PF (meaning (q4nth q) (mnth g i j)))).
  - reflexivity.
  - intros i j Hi Hj. exact (run_plain (mnth g i j) (q4nth q) (H i j Hi Hj)).
Qed.

(** ** C04: the Jacobian *)
Lemma dual_coords_tracks coords k : (k < 4)%nat ->
  tracks (fun i s => upd (q4nth coords) k s i) (q4nth coords k) (dual_coords coords k).
Proof.
  intros Hk i. unfold dual_coords, upd; simpl. destruct (Nat.eqb_spec i k) as [->|Hne].
  - split; [reflexivity|apply D_id].
  - split; [reflexivity|apply D_const].
Qed.

Lemma upd_same f k i : upd f k (f k) i = f i.
Proof. unfold upd. destruct (Nat.eqb_spec i k); subst; reflexivity. Qed.

Lemma meaning_ext e f g : (forall i, f i = g i) -> meaning f e = meaning g e.
Proof. intros H. induction e; simpl; rewrite ?IHe, ?IHe1, ?IHe2; auto. Qed.
Lemma defined_ext e f g : (forall i, f i = g i) -> defined_at f e -> defined_at g e.
Proof.
  intros H. induction e; simpl; rewrite <- ?(meaning_ext _ f g H); tauto.
Qed.

Lemma jacobian_correct : forall (g : metricP) (coords : V4) (k : nat),
  (k < 4)%nat -> metric_defined g (q4nth coords) ->
  exists J, jacobian_g g coords (Z.of_nat k) = Ok J
    /\ (forall i j, (i < 4)%nat -> (j < 4)%nat -> mnth J i j = mnth J j i)
    /\ (forall i j, (i <= j)%nat -> (j < 4)%nat ->
          is_derive (fun s => meaning (upd (q4nth coords) k s) (mnth g i j)) (q4nth coords k) (mnth J i j)).
Proof.
  intros g coords k Hk Hdef.
  assert (Hrun : exists h : nat -> nat -> pyval,
     run_metric g (dual_coords coords k) = Ok (mtab h) /\
     forall i j, (i < 4)%nat -> (j < 4)%nat ->
       is_derive (fun s => meaning (upd (q4nth coords) k s) (mnth g i j)) (q4nth coords k) (pderiv (h i j))).
  { assert (Hone : forall i j, exists v, (i < 4)%nat -> (j < 4)%nat ->
        runP (dual_coords coords k) (mnth g i j) = Ok v
        /\ is_derive (fun s => meaning (upd (q4nth coords) k s) (mnth g i j)) (q4nth coords k) (pderiv v)).
    { intros i j. destruct (Nat.ltb_spec i 4) as [Hi|Hi]; [|exists (PF 0); intros; lia].
      destruct (Nat.ltb_spec j 4) as [Hj|Hj]; [|exists (PF 0); intros; lia].
      destruct (run_exact (mnth g i j) _ _ _ (dual_coords_tracks coords k Hk)) as (v & Hv & _ & HD).
      - eapply defined_ext; [|apply Hdef; assumption]. intros m. symmetry. apply upd_same.
      - exists v; intros _ _; split; assumption. }
    assert (Hsel : forall i j, {v | (i < 4)%nat -> (j < 4)%nat ->
        runP (dual_coords coords k) (mnth g i j) = Ok v
        /\ is_derive (fun s => meaning (upd (q4nth coords) k s) (mnth g i j)) (q4nth coords k) (pderiv v)}).
    { intros i j. destruct (runP (dual_coords coords k) (mnth g i j)) as [v|er] eqn:E.
      - exists v. intros Hi Hj. split; [reflexivity|].
        destruct (Hone i j) as (v' & H'). destruct (H' Hi Hj) as [H1 H2].
        rewrite E in H1. apply Ok_inj in H1. subst v'. exact H2.
      - exists (PF 0). intros Hi Hj. exfalso. destruct (Hone i j) as (v' & H'). destruct (H' Hi Hj) as [H1 _].
        rewrite E in H1. discriminate H1. }
    exists (fun i j => proj1_sig (Hsel i j)). split.
    - apply run_metric_Ok. intros i j Hi Hj. apply (proj2_sig (Hsel i j) Hi Hj).
    - intros i j Hi Hj. apply (proj2_sig (Hsel i j) Hi Hj). }
  destruct Hrun as (h & Hrun & Hder).
  unfold jacobian_g, jac_upper.
  rewrite (q4seq_tab _ (fun i => q4tab (fun j => if Nat.leb i j then pderiv (h i j) else 0))).
  2:{ intros i Hi. apply q4seq_tab. intros j Hj. destruct (Nat.leb i j); [|reflexivity].
      unfold diff_g. rewrite Nat2Z.id, Hrun.
      replace (negb _) with false.
      2:{ symmetry. apply negb_false_iff. revert k Hk Hdef Hrun Hder. clear.
          intros k Hk _ _ _. revert k Hk. apply q4_cases; reflexivity. }
      cbn [bindR]. rewrite (proj2 (Nat.ltb_lt i 4) Hi), (proj2 (Nat.ltb_lt j 4) Hj). cbn [andb].
      cbv iota. f_equal. f_equal. apply mnth_tab; assumption. }
  cbn [bindR]. eexists; split; [reflexivity|]. split.
  - intros i j Hi Hj. rewrite !mnth_tab by assumption. rewrite !(mnth_tab' (fun i j => _)) by assumption.
    rewrite (Nat.eqb_sym j i). destruct (Nat.eqb_spec i j) as [->|]; ring.
  - intros i j Hij Hj. rewrite !mnth_tab by lia. rewrite !(mnth_tab' (fun i j => _)) by lia.
    eapply D_eq; [apply (Hder i j); lia|].
    rewrite (proj2 (Nat.leb_le i j) Hij). destruct (Nat.eqb_spec i j) as [->|Hne].
    + rewrite Nat.leb_refl. ring.
    + destruct (Nat.leb_spec j i); [lia|]. ring.
Qed.

Lemma diff_g_bad_wrt g coords ix (w : Z) : (w < 0 \/ 3 < w)%Z -> diff_g g coords ix w = Err ValueError.
Proof.
  intros H. unfold diff_g. replace (negb _) with true; [reflexivity|].
  symmetry. apply negb_true_iff. rewrite !orb_false_iff, !Z.eqb_neq. lia.
Qed.
Lemma diff_g_bad_arity g coords ix (w : Z) : length ix <> 2%nat -> diff_g g coords ix w = Err ValueError.
Proof.
  intros H. unfold diff_g. destruct (negb _); [reflexivity|].
  destruct ix as [|? [|? [|? ?]]]; simpl in H; try reflexivity; lia.
Qed.
Lemma jacobian_bad_wrt g coords (w : Z) : (w < 0 \/ 3 < w)%Z -> jacobian_g g coords w = Err ValueError.
Proof.
  intros H. unfold jacobian_g, jac_upper, q4seq, q4tab. cbn [c0]. simpl Nat.leb. cbv iota.
  rewrite (diff_g_bad_wrt g coords _ w H). reflexivity.
Qed.

(** ** Domain of the built-in metrics *)
Lemma SigmaS_pos r th a : r <> 0 -> 0 < SigmaS r th a.
Proof.
  intros H. unfold SigmaS. assert (0 < r * r) by nra.
  assert (0 <= a * a * (cos th * cos th)) by (apply Rmult_le_pos; nra). lra.
Qed.

Lemma powerRZ2 x : powerRZ x 2 = x * x.
Proof. simpl. ring. Qed.

Lemma sin_cos_sq th : cos th * cos th = 1 - sin th * sin th.
Proof. assert (H := sin2_cos2 th). unfold Rsqr in H. lra. Qed.

Definition mk4 (t r th ph : R) : V4 := mkQ4 t r th ph.

Ltac all_entries := intros i j Hi Hj; revert i Hi; apply q4_cases; revert j Hj; apply q4_cases.

Lemma sq_nz x : x <> 0 -> x * x <> 0.
Proof. intros H; apply Rmult_integral_contrapositive; tauto. Qed.
Lemma mul_nz x y : x <> 0 -> y <> 0 -> x * y <> 0.
Proof. intros; apply Rmult_integral_contrapositive; tauto. Qed.

Lemma sch_defined t r th ph : r <> 0 -> r <> 2 -> sin th <> 0 -> metric_defined schE (q4nth (mk4 t r th ph)).
Proof.
  intros Hr Hr2 Hs. all_entries; simpl; auto; repeat split; auto; rewrite ?Rmult_1_r;
    try (apply sq_nz); auto using mul_nz;
    try (left; lia).
  intros E. apply Hr2. apply (Rmult_eq_compat_r r) in E.
  replace ((1 - 2 / r) * r) with (r - 2) in E by (field; assumption). lra.
Qed.

Lemma sigma_meaning q a : meaning q (sigmaE (EVar 1) (EVar 2) a) = SigmaS (q 1%nat) (q 2%nat) a.
Proof. unfold SigmaS; simpl; ring. Qed.
Lemma delta_meaning q a Q : meaning q (deltaE (EVar 1) a Q) = DeltaS (q 1%nat) a Q.
Proof. unfold DeltaS; simpl; ring. Qed.
Lemma sigma_def q a : defined_at q (sigmaE (EVar 1) (EVar 2) a).
Proof. simpl; repeat split; left; lia. Qed.
Lemma delta_def q a Q : defined_at q (deltaE (EVar 1) a Q).
Proof. simpl; repeat split; left; lia. Qed.

Lemma kerr_defined a t r th ph : SigmaS r th a <> 0 -> DeltaS r a 0 <> 0 -> sin th <> 0 ->
  metric_defined (kerrE a) (q4nth (mk4 t r th ph)).
Proof.
  intros HS HD Hs.
  assert (HS' := sigma_meaning (q4nth (mk4 t r th ph)) a).
  assert (HD' := delta_meaning (q4nth (mk4 t r th ph)) a 0).
  assert (dS := sigma_def (q4nth (mk4 t r th ph)) a).
  assert (dD := delta_def (q4nth (mk4 t r th ph)) a 0).
  unfold kerrE. set (sg := sigmaE (EVar 1) (EVar 2) a) in *. set (dl := deltaE (EVar 1) a 0) in *.
  clearbody sg dl.
  change (q4nth (mk4 t r th ph) 1) with r in *. change (q4nth (mk4 t r th ph) 2) with th in *.
  all_entries; unfold mnth; cbn [q4nth c0 c1 c2 c3]; unfold zeroE, Ec, Esq; cbn [defined_at meaning]; rewrite ?HS', ?HD'; repeat split; auto; try (left; lia);
    rewrite ?powerRZ2; change (q4nth (mk4 t r th ph) 2) with th;
    repeat first [apply mul_nz|apply sq_nz]; rewrite ?HS', ?HD'; auto.
Qed.

Lemma kn_denom r th a : a * a + 2 * (r * r) + a * a * cos (2 * th) = 2 * SigmaS r th a.
Proof. rewrite cos_2a_cos. unfold SigmaS. ring. Qed.
Lemma kn_denom2 r th a : sin th <> 0 ->
  a * a - (a * a + r * r) * (1 / (sin th * sin th)) = - (SigmaS r th a / (sin th * sin th)).
Proof.
  intros H. unfold SigmaS. rewrite sin_cos_sq. field. exact H.
Qed.

Lemma kn_defined a Q t r th ph : SigmaS r th a <> 0 -> DeltaS r a Q <> 0 -> sin th <> 0 ->
  metric_defined (kerrnewmanE a Q) (q4nth (mk4 t r th ph)).
Proof.
  intros HS HD Hs.
  assert (HS' := sigma_meaning (q4nth (mk4 t r th ph)) a).
  assert (HD' := delta_meaning (q4nth (mk4 t r th ph)) a Q).
  assert (dS := sigma_def (q4nth (mk4 t r th ph)) a).
  assert (dD := delta_def (q4nth (mk4 t r th ph)) a Q).
  unfold kerrnewmanE. set (sg := sigmaE (EVar 1) (EVar 2) a) in *. set (dl := deltaE (EVar 1) a Q) in *.
  clearbody sg dl.
  change (q4nth (mk4 t r th ph) 1) with r in *. change (q4nth (mk4 t r th ph) 2) with th in *.
  assert (K1 : a * a + 2 * (r * r) + a * a * cos (2 * th) <> 0).
  { rewrite kn_denom. lra. }
  assert (K2 : a * a - (a * a + r * r) * (1 / (sin th * sin th)) <> 0).
  { rewrite kn_denom2 by assumption. intros E. apply HS.
    assert (E' : SigmaS r th a / (sin th * sin th) = 0) by lra.
    apply (Rmult_eq_compat_r (sin th * sin th)) in E'. unfold Rdiv in E'.
    rewrite Rmult_assoc, Rinv_l in E' by (apply sq_nz; exact Hs). lra. }
  all_entries; unfold mnth; cbn [q4nth c0 c1 c2 c3]; unfold zeroE, Ec, Esq; cbn [defined_at meaning]; rewrite ?HS', ?HD'; repeat split; auto; try (left; lia);
    rewrite ?powerRZ2; change (q4nth (mk4 t r th ph) 2) with th; change (q4nth (mk4 t r th ph) 1) with r;
    repeat first [apply mul_nz|apply sq_nz]; rewrite ?HS', ?HD'; auto.
Qed.

(** ** C05 *)
Lemma cos_pow2 th : cos th ^ 2 = 1 - sin th ^ 2.
Proof. assert (H := sin2_cos2 th); unfold Rsqr in H; simpl; lra. Qed.

Definition kn_con (a Q r th : R) : M4 :=
  let S := SigmaS r th a in let D := DeltaS r a Q in let s2 := sin th * sin th in
  let g03 := - (a * (2 * r - Q * Q) / (S * D)) in
  mkQ4 (mkQ4 (- (((r * r + a * a) * (r * r + a * a) - a * a * D * s2) / (S * D))) 0 0 g03)
       (mkQ4 0 (D / S) 0 0)
       (mkQ4 0 0 (1 / S) 0)
       (mkQ4 g03 0 0 ((D - a * a * s2) / (S * D * s2))).

Lemma metric_meaning_eq g q m :
  (forall i j, (i < 4)%nat -> (j < 4)%nat -> meaning q (mnth g i j) = mnth m i j) -> metric_meaning g q = m.
Proof.
  intros H. unfold metric_meaning.
  apply Q4_eq; apply Q4_eq; [ apply (H 0 0)%nat|apply (H 0 1)%nat|apply (H 0 2)%nat|apply (H 0 3)%nat
   |apply (H 1 0)%nat|apply (H 1 1)%nat|apply (H 1 2)%nat|apply (H 1 3)%nat
   |apply (H 2 0)%nat|apply (H 2 1)%nat|apply (H 2 2)%nat|apply (H 2 3)%nat
   |apply (H 3 0)%nat|apply (H 3 1)%nat|apply (H 3 2)%nat|apply (H 3 3)%nat]; lia.
Qed.

Lemma kn_meaning a Q t r th ph : SigmaS r th a <> 0 -> DeltaS r a Q <> 0 -> sin th <> 0 ->
  metric_meaning (kerrnewmanE a Q) (q4nth (mk4 t r th ph)) = kn_con a Q r th.
Proof.
  intros HS HD Hs. apply metric_meaning_eq.
  assert (HS' := sigma_meaning (q4nth (mk4 t r th ph)) a).
  assert (HD' := delta_meaning (q4nth (mk4 t r th ph)) a Q).
  unfold kerrnewmanE. set (sg := sigmaE (EVar 1) (EVar 2) a) in *. set (dl := deltaE (EVar 1) a Q) in *.
  clearbody sg dl.
  change (q4nth (mk4 t r th ph) 1) with r in *. change (q4nth (mk4 t r th ph) 2) with th in *.
  unfold kn_con.
  all_entries; unfold mnth; cbn [q4nth c0 c1 c2 c3]; unfold zeroE, Ec, Esq; cbn [meaning]; rewrite ?HS', ?HD';
    rewrite ?powerRZ2; change (q4nth (mk4 t r th ph) 2) with th; change (q4nth (mk4 t r th ph) 1) with r;
    rewrite ?kn_denom, ?kn_denom2 by assumption; try reflexivity.
  - field; auto.
  - unfold DeltaS at 1. field. auto.
  - unfold DeltaS at 1. field; auto.
  - field; auto.
Qed.

Lemma kerr_meaning a t r th ph : SigmaS r th a <> 0 -> DeltaS r a 0 <> 0 -> sin th <> 0 ->
  metric_meaning (kerrE a) (q4nth (mk4 t r th ph)) = kn_con a 0 r th.
Proof.
  intros HS HD Hs. apply metric_meaning_eq.
  assert (HS' := sigma_meaning (q4nth (mk4 t r th ph)) a).
  assert (HD' := delta_meaning (q4nth (mk4 t r th ph)) a 0).
  unfold kerrE. set (sg := sigmaE (EVar 1) (EVar 2) a) in *. set (dl := deltaE (EVar 1) a 0) in *.
  clearbody sg dl.
  change (q4nth (mk4 t r th ph) 1) with r in *. change (q4nth (mk4 t r th ph) 2) with th in *.
  unfold kn_con.
  assert (K : SigmaS r th a - 2 * r = DeltaS r a 0 - a * a * (sin th * sin th)).
  { unfold SigmaS, DeltaS. rewrite sin_cos_sq. ring. }
  assert (K2 : SigmaS r th a = r * r + a * a - a * a * (sin th * sin th)).
  { unfold SigmaS. rewrite sin_cos_sq. ring. }
  all_entries; unfold mnth; cbn [q4nth c0 c1 c2 c3]; unfold zeroE, Ec, Esq; cbn [meaning]; rewrite ?HS', ?HD';
    rewrite ?powerRZ2; change (q4nth (mk4 t r th ph) 2) with th; change (q4nth (mk4 t r th ph) 1) with r;
    try reflexivity.
  - replace ((r * r + a * a) * (r * r + a * a) - a * a * DeltaS r a 0 * (sin th * sin th))
      with ((r * r + a * a) * SigmaS r th a + 2 * r * (a * sin th * (a * sin th)))
      by (rewrite K2; unfold DeltaS; ring).
    field; auto.
  - field. auto.
  - field; auto.
  - rewrite <- K. field; auto.
Qed.

Ltac mat_entries :=
  unfold mm, mv, transpose, id4, mtab, mnth, dot, q4map, q4map2, q4tab; apply Q4_eq; apply Q4_eq;
  cbn [q4nth c0 c1 c2 c3 Nat.eqb].

Lemma kn_con_cov a Q r th : SigmaS r th a <> 0 -> DeltaS r a Q <> 0 -> sin th <> 0 ->
  mm (kn_con a Q r th) (kn_cov a Q r th) = id4 /\ mm (kn_cov a Q r th) (kn_con a Q r th) = id4.
Proof.
  intros HS HD Hs.
  assert (K2 : SigmaS r th a = r * r + a * a - a * a * (sin th * sin th)).
  { unfold SigmaS. rewrite sin_cos_sq. ring. }
  unfold kn_con, kn_cov. rewrite K2 in *. unfold DeltaS in *. set (s := sin th) in *. clearbody s.
  split; mat_entries; try ring; try (field; auto).
Qed.

Definition inverse_of (m n : M4) : Prop := mm m n = id4 /\ mm n m = id4.

Lemma kn_metric_inverse : forall a Q t r th ph,
  SigmaS r th a <> 0 -> DeltaS r a Q <> 0 -> sin th <> 0 ->
  exists m, metric_at (kerrnewmanE a Q) (mk4 t r th ph) = Ok m /\ inverse_of m (kn_cov a Q r th).
Proof.
  intros. eexists; split; [apply metric_at_Ok, kn_defined; assumption|].
  rewrite kn_meaning by assumption. apply kn_con_cov; assumption.
Qed.

Lemma kerr_metric_inverse : forall a t r th ph,
  SigmaS r th a <> 0 -> DeltaS r a 0 <> 0 -> sin th <> 0 ->
  exists m, metric_at (kerrE a) (mk4 t r th ph) = Ok m /\ inverse_of m (kn_cov a 0 r th).
Proof.
  intros. eexists; split; [apply metric_at_Ok, kerr_defined; assumption|].
  rewrite kerr_meaning by assumption. apply kn_con_cov; assumption.
Qed.

Lemma sch_meaning t r th ph : r <> 0 -> r <> 2 -> sin th <> 0 ->
  metric_meaning schE (q4nth (mk4 t r th ph)) = kn_con 0 0 r th.
Proof.
  intros Hr Hr2 Hs. apply metric_meaning_eq. unfold schE, kn_con, SigmaS, DeltaS.
  assert (r - 2 <> 0) by lra.
  all_entries; unfold mnth; cbn [q4nth c0 c1 c2 c3]; unfold zeroE, Ec, Esq; cbn [meaning]; rewrite ?powerRZ2;
    change (q4nth (mk4 t r th ph) 2) with th; change (q4nth (mk4 t r th ph) 1) with r; try reflexivity;
    try (field; repeat split; auto).
  all: try (intros E; apply H; nra).
  all: replace (r * r - 2 * r + 0 * 0 + 0 * 0) with (r * (r - 2)) by ring; apply mul_nz; assumption.
Qed.

Lemma sch_cov_kn r th : r <> 0 -> r <> 2 -> sch_cov r th = kn_cov 0 0 r th.
Proof.
  intros Hr Hr2. unfold sch_cov, kn_cov, SigmaS, DeltaS. assert (r - 2 <> 0) by lra.
  apply Q4_eq; apply Q4_eq; cbn [c0 c1 c2 c3];
    replace (r * r - 2 * r + 0 * 0 + 0 * 0) with (r * (r - 2)) by ring; try (field; auto).
Qed.
Lemma sch_metric_inverse : forall t r th ph, r <> 0 -> r <> 2 -> sin th <> 0 ->
  exists m, metric_at schE (mk4 t r th ph) = Ok m /\ inverse_of m (sch_cov r th).
Proof.
  intros t r th ph Hr Hr2 Hs. eexists; split; [apply metric_at_Ok, sch_defined; assumption|].
  rewrite sch_meaning, sch_cov_kn by assumption. apply kn_con_cov; [| |assumption].
  - unfold SigmaS. assert (H := sq_nz _ Hr). nra.
  - unfold DeltaS. replace (r * r - 2 * r + 0 * 0 + 0 * 0) with (r * (r - 2)) by ring. apply mul_nz; lra.
Qed.

Lemma kn_Q0_is_kerr a t r th ph : SigmaS r th a <> 0 -> DeltaS r a 0 <> 0 -> sin th <> 0 ->
  metric_at (kerrnewmanE a 0) (mk4 t r th ph) = metric_at (kerrE a) (mk4 t r th ph).
Proof.
  intros. rewrite !metric_at_Ok by (apply kn_defined || apply kerr_defined; assumption).
  rewrite kn_meaning, kerr_meaning by assumption. reflexivity.
Qed.
Lemma kerr_a0_is_sch t r th ph : r <> 0 -> r <> 2 -> sin th <> 0 ->
  metric_at (kerrE 0) (mk4 t r th ph) = metric_at schE (mk4 t r th ph).
Proof.
  intros Hr Hr2 Hs.
  assert (SigmaS r th 0 <> 0) by (unfold SigmaS; apply not_eq_sym, Rlt_not_eq; nra).
  assert (DeltaS r 0 0 <> 0).
  { unfold DeltaS. replace (r * r - 2 * r + 0 * 0 + 0 * 0) with (r * (r - 2)) by ring. apply mul_nz; lra. }
  rewrite !metric_at_Ok by (apply sch_defined || apply kerr_defined; assumption).
  rewrite kerr_meaning, sch_meaning by assumption. reflexivity.
Qed.

(** ** C06 / C07 *)
Definition quad (g : M4) (p : V4) : R := dot (mv g p) p.
Definition sparse (g : M4) : Prop :=
  mnth g 0 1 = 0 /\ mnth g 0 2 = 0 /\ mnth g 1 2 = 0 /\ mnth g 1 3 = 0 /\ mnth g 2 3 = 0.
Definition symm (g : M4) : Prop := transpose g = g.
Lemma symm_nth g i j : symm g -> (i < 4)%nat -> (j < 4)%nat -> mnth g i j = mnth g j i.
Proof.
  intros H Hi Hj. assert (E : mnth (transpose g) i j = mnth g j i).
  { unfold transpose. rewrite mnth_tab by assumption. reflexivity. }
  unfold symm in H. rewrite H in E. exact E.
Qed.
Definition discr (g : M4) (p1 p2 p3 : R) (tl : bool) : R :=
  (2 * mnth g 0 3 * p3) * (2 * mnth g 0 3 * p3)
  - 4 * mnth g 0 0 * (mnth g 1 1 * p1 * p1 + mnth g 2 2 * p2 * p2 + mnth g 3 3 * p3 * p3 + b2R tl).

Lemma quad_expand g p : symm g ->
  quad g p = mnth g 0 0 * c0 p * c0 p + mnth g 1 1 * c1 p * c1 p + mnth g 2 2 * c2 p * c2 p + mnth g 3 3 * c3 p * c3 p
   + 2 * (mnth g 0 1 * c0 p * c1 p + mnth g 0 2 * c0 p * c2 p + mnth g 0 3 * c0 p * c3 p
        + mnth g 1 2 * c1 p * c2 p + mnth g 1 3 * c1 p * c3 p + mnth g 2 3 * c2 p * c3 p).
Proof.
  intros H.
  assert (E01 := symm_nth g 1 0 H ltac:(lia) ltac:(lia)). assert (E02 := symm_nth g 2 0 H ltac:(lia) ltac:(lia)).
  assert (E03 := symm_nth g 3 0 H ltac:(lia) ltac:(lia)). assert (E12 := symm_nth g 2 1 H ltac:(lia) ltac:(lia)).
  assert (E13 := symm_nth g 3 1 H ltac:(lia) ltac:(lia)). assert (E23 := symm_nth g 3 2 H ltac:(lia) ltac:(lia)).
  clear H. destruct g as [[a00 a01 a02 a03] [a10 a11 a12 a13] [a20 a21 a22 a23] [a30 a31 a32 a33]], p as [x0 x1 x2 x3].
  unfold quad, mv, dot, q4map, mnth in *; cbn [q4nth c0 c1 c2 c3] in *. subst. ring.
Qed.

(** exact residual: the mixed components the formula ignores *)
Definition ignored (g : M4) (p : V4) : R :=
  2 * (mnth g 0 1 * c0 p * c1 p + mnth g 0 2 * c0 p * c2 p
     + mnth g 1 2 * c1 p * c2 p + mnth g 1 3 * c1 p * c3 p + mnth g 2 3 * c2 p * c3 p).

Lemma P_of_guu_Ok g p1 p2 p3 tl : mnth g 0 0 <> 0 -> 0 <= discr g p1 p2 p3 tl ->
  P_of_guu g p1 p2 p3 tl =
  Ok (mkQ4 ((- (2 * mnth g 0 3 * p3) + sqrt (discr g p1 p2 p3 tl)) / (2 * mnth g 0 0)) p1 p2 p3).
Proof.
  intros HA HD. unfold P_of_guu, np_sqrt. fold (discr g p1 p2 p3 tl).
  destruct (Rle_dec 0 (discr g p1 p2 p3 tl)); [|tauto]. cbn [bindR].
  unfold np_div. destruct (Req_EM_T (2 * mnth g 0 0) 0); [lra|]. reflexivity.
Qed.

Lemma P_residual g p1 p2 p3 tl : symm g -> mnth g 0 0 <> 0 -> 0 <= discr g p1 p2 p3 tl ->
  exists P, P_of_guu g p1 p2 p3 tl = Ok P /\ c1 P = p1 /\ c2 P = p2 /\ c3 P = p3
   /\ quad g P = - b2R tl + ignored g P.
Proof.
  intros Hs HA HD. eexists; split; [apply P_of_guu_Ok; assumption|].
  cbn [c1]; cbn [c2]; cbn [c3]. repeat split; try reflexivity.
  rewrite quad_expand by assumption. unfold ignored. cbn [c0]; cbn [c1]; cbn [c2]; cbn [c3].
  set (s := sqrt (discr g p1 p2 p3 tl)).
  assert (Es : s * s = discr g p1 p2 p3 tl) by (apply sqrt_sqrt; exact HD).
  unfold discr in Es. set (A := mnth g 0 0) in *. set (B := mnth g 0 3) in *.
  set (C1 := mnth g 1 1) in *. set (C2 := mnth g 2 2) in *. set (C3 := mnth g 3 3) in *.
  set (x := (- (2 * B * p3) + s) / (2 * A)).
  assert (Ex : 2 * A * x = - (2 * B * p3) + s) by (unfold x; field; exact HA).
  assert (Hsq : (2 * A * x + 2 * B * p3) * (2 * A * x + 2 * B * p3) = s * s) by (rewrite Ex; ring).
  rewrite Es in Hsq.
  assert (Key : 4 * A * (A * x * x + 2 * (B * x * p3) + (C1 * p1 * p1 + C2 * p2 * p2 + C3 * p3 * p3 + b2R tl)) = 0)
    by lra.
  apply Rmult_integral in Key. destruct Key as [Key|Key]; [exfalso; apply HA; lra|]. lra.
Qed.

(** the contravariant time component is the non-negative square root: future directed *)
Lemma P_future g p1 p2 p3 tl P : symm g -> sparse g -> P_of_guu g p1 p2 p3 tl = Ok P ->
  c0 (mv g P) = sqrt (discr g p1 p2 p3 tl) / 2 /\ 0 <= discr g p1 p2 p3 tl /\ mnth g 0 0 <> 0.
Proof.
  intros Hs (H01 & H02 & _) HP. unfold P_of_guu, np_sqrt in HP. fold (discr g p1 p2 p3 tl) in HP.
  destruct (Rle_dec 0 (discr g p1 p2 p3 tl)); [|discriminate]. cbn [bindR] in HP.
  unfold np_div in HP. destruct (Req_EM_T (2 * mnth g 0 0) 0); [discriminate|]. simpl in HP.
  apply Ok_inj in HP. subst P. repeat split; try assumption; [|lra].
  unfold mv, dot, q4map, mnth in *. simpl in *. rewrite H01, H02. field. lra.
Qed.

Lemma P_fails_iff g p1 p2 p3 tl :
  (exists e, P_of_guu g p1 p2 p3 tl = Err e) <-> (discr g p1 p2 p3 tl < 0 \/ mnth g 0 0 = 0).
Proof.
  unfold P_of_guu, np_sqrt. fold (discr g p1 p2 p3 tl).
  destruct (Rle_dec 0 (discr g p1 p2 p3 tl)); cbn [bindR].
  - unfold np_div. destruct (Req_EM_T (2 * mnth g 0 0) 0); cbn [bindR].
    + split; [intros _; right; lra|intros; eauto].
    + split; [intros (e & E); discriminate|intros [H|H]; [lra|]]. exfalso; apply n; lra.
  - split; [intros _; left; lra|intros; eauto].
Qed.

Lemma P_on_shell_sparse g p1 p2 p3 tl P : symm g -> sparse g -> P_of_guu g p1 p2 p3 tl = Ok P ->
  quad g P = - b2R tl /\ c1 P = p1 /\ c2 P = p2 /\ c3 P = p3 /\ 0 <= c0 (mv g P)
  /\ (0 < discr g p1 p2 p3 tl -> 0 < c0 (mv g P)).
Proof.
  intros Hs Hsp HP. destruct (P_future _ _ _ _ _ _ Hs Hsp HP) as (Hf & HD & HA).
  destruct (P_residual g p1 p2 p3 tl Hs HA HD) as (P' & HP' & E1 & E2 & E3 & Q).
  rewrite HP in HP'. apply Ok_inj in HP'. subst P'.
  destruct Hsp as (H01 & H02 & H12 & H13 & H23).
  split; [rewrite Q; unfold ignored; rewrite H01, H02, H12, H13, H23; ring|].
  repeat split; auto; rewrite Hf.
  - assert (H := sqrt_pos (discr g p1 p2 p3 tl)). lra.
  - intros Hd. assert (H := sqrt_lt_R0 _ Hd). lra.
Qed.

Lemma kn_con_symm_sparse a Q r th : symm (kn_con a Q r th) /\ sparse (kn_con a Q r th).
Proof. split; [reflexivity|]. repeat split. Qed.

(** outside the outer horizon the discriminant is automatically positive for massive particles *)
Lemma kn_discr_pos a Q r th p1 p2 p3 tl : 0 < r -> Q * Q <= 2 * r -> 0 < DeltaS r a Q -> sin th <> 0 ->
  0 <= discr (kn_con a Q r th) p1 p2 p3 tl
  /\ (tl = true -> 0 < discr (kn_con a Q r th) p1 p2 p3 tl)
  /\ mnth (kn_con a Q r th) 0 0 < 0.
Proof.
  intros Hr HQ HD Hs.
  assert (HS : 0 < SigmaS r th a) by (apply SigmaS_pos; lra).
  assert (Hs2 : 0 < sin th * sin th) by (assert (H := sq_nz _ Hs); nra).
  assert (K2 : SigmaS r th a = r * r + a * a - a * a * (sin th * sin th)).
  { unfold SigmaS. rewrite sin_cos_sq. ring. }
  assert (Hid : ((r * r + a * a) * (r * r + a * a) - a * a * DeltaS r a Q * (sin th * sin th))
                 * (DeltaS r a Q - a * a * (sin th * sin th))
              + (a * (2 * r - Q * Q)) * (a * (2 * r - Q * Q)) * (sin th * sin th)
              = SigmaS r th a * SigmaS r th a * DeltaS r a Q).
  { rewrite K2. unfold DeltaS. ring. }
  assert (HN : 0 < (r * r + a * a) * (r * r + a * a) - a * a * DeltaS r a Q * (sin th * sin th)).
  { replace ((r * r + a * a) * (r * r + a * a) - a * a * DeltaS r a Q * (sin th * sin th))
      with ((r * r + a * a) * SigmaS r th a + (2 * r - Q * Q) * (a * a) * (sin th * sin th))
      by (rewrite K2; unfold DeltaS; ring).
    assert (0 < r * r + a * a) by nra.
    assert (0 < (r * r + a * a) * SigmaS r th a) by (apply Rmult_lt_0_compat; assumption).
    assert (0 <= (2 * r - Q * Q) * (a * a) * (sin th * sin th)).
    { apply Rmult_le_pos; [apply Rmult_le_pos|]; nra. }
    lra. }
  unfold discr, kn_con, mnth. cbn [q4nth c0 c1 c2 c3].
  set (S := SigmaS r th a) in *. set (D := DeltaS r a Q) in *. set (s2 := sin th * sin th) in *.
  set (N := (r * r + a * a) * (r * r + a * a) - a * a * D * s2) in *.
  set (w := a * (2 * r - Q * Q)) in *.
  assert (HA : - (N / (S * D)) < 0).
  { assert (0 < N / (S * D)) by (apply Rdiv_lt_0_compat; [assumption|apply Rmult_lt_0_compat; assumption]). lra. }
  assert (E : 2 * - (w / (S * D)) * p3 * (2 * - (w / (S * D)) * p3)
     - 4 * - (N / (S * D)) * (D / S * p1 * p1 + 1 / S * p2 * p2 + (D - a * a * s2) / (S * D * s2) * p3 * p3 + b2R tl)
     = 4 * (p3 * p3 * (1 / (D * s2))
            + N / (S * D) * (D / S * (p1 * p1) + 1 / S * (p2 * p2) + b2R tl))).
  { replace (1 / (D * s2)) with ((S * S * D) / (S * S * D * (D * s2))) by (field; repeat split; lra).
    rewrite <- Hid at 1. field. repeat split; lra. }
  rewrite E.
  assert (H1 : 0 <= p3 * p3 * (1 / (D * s2))).
  { apply Rmult_le_pos; [nra|]. apply Rlt_le, Rdiv_lt_0_compat; [lra|apply Rmult_lt_0_compat; assumption]. }
  assert (H2 : 0 <= D / S * (p1 * p1)).
  { apply Rmult_le_pos; [|nra]. apply Rlt_le, Rdiv_lt_0_compat; assumption. }
  assert (H3 : 0 <= 1 / S * (p2 * p2)).
  { apply Rmult_le_pos; [|nra]. apply Rlt_le, Rdiv_lt_0_compat; lra. }
  assert (H4 : 0 <= b2R tl) by (destruct tl; simpl; lra).
  assert (H5 : 0 < N / (S * D)) by lra.
  split; [|split].
  - assert (0 <= N / (S * D) * (D / S * (p1 * p1) + 1 / S * (p2 * p2) + b2R tl)).
    { apply Rmult_le_pos; lra. }
    lra.
  - intros ->. cbn [b2R] in *.
    assert (0 < N / (S * D) * (D / S * (p1 * p1) + 1 / S * (p2 * p2) + 1)).
    { apply Rmult_lt_0_compat; lra. }
    lra.
  - exact HA.
Qed.

(** The three built-in metrics: the initial momentum exists and is on shell outside the horizon. *)
Definition on_shell_future (guu : M4) (P : V4) (p1 p2 p3 : R) (tl : bool) : Prop :=
  quad guu P = - b2R tl /\ c1 P = p1 /\ c2 P = p2 /\ c3 P = p3 /\ 0 <= c0 (mv guu P)
  /\ (tl = true -> 0 < c0 (mv guu P)).

Lemma P4_kn_con g a Q q r th p1 p2 p3 tl :
  metric_at g q = Ok (kn_con a Q r th) -> 0 < r -> Q * Q <= 2 * r -> 0 < DeltaS r a Q -> sin th <> 0 ->
  exists P, P4 g q p1 p2 p3 tl = Ok P /\ on_shell_future (kn_con a Q r th) P p1 p2 p3 tl.
Proof.
  intros Hg Hr HQ HD Hs. unfold P4. rewrite Hg. cbn [bindR].
  destruct (kn_discr_pos a Q r th p1 p2 p3 tl Hr HQ HD Hs) as (H1 & H2 & H3).
  destruct (kn_con_symm_sparse a Q r th) as [Hsy Hsp].
  destruct (P_residual (kn_con a Q r th) p1 p2 p3 tl Hsy) as (P & HP & _); [lra|assumption|].
  exists P. split; [exact HP|].
  destruct (P_on_shell_sparse _ _ _ _ _ _ Hsy Hsp HP) as (Q1 & Q2 & Q3 & Q4 & Q5 & Q6).
  unfold on_shell_future. repeat split; auto.
Qed.

Lemma P4_kerrnewman a Q t r th ph p1 p2 p3 tl :
  0 < r -> Q * Q <= 2 * r -> 0 < DeltaS r a Q -> sin th <> 0 ->
  exists guu P, metric_at (kerrnewmanE a Q) (mk4 t r th ph) = Ok guu
   /\ P4 (kerrnewmanE a Q) (mk4 t r th ph) p1 p2 p3 tl = Ok P /\ on_shell_future guu P p1 p2 p3 tl.
Proof.
  intros Hr HQ HD Hs.
  assert (HS : 0 < SigmaS r th a) by (apply SigmaS_pos; lra).
  assert (Hg : metric_at (kerrnewmanE a Q) (mk4 t r th ph) = Ok (kn_con a Q r th)).
  { rewrite metric_at_Ok by (apply kn_defined; lra || assumption). rewrite kn_meaning by (lra || assumption). reflexivity. }
  destruct (P4_kn_con _ a Q _ r th p1 p2 p3 tl Hg) as (P & HP & H); auto. eauto.
Qed.
Lemma P4_kerr a t r th ph p1 p2 p3 tl :
  0 < r -> 0 < DeltaS r a 0 -> sin th <> 0 ->
  exists guu P, metric_at (kerrE a) (mk4 t r th ph) = Ok guu
   /\ P4 (kerrE a) (mk4 t r th ph) p1 p2 p3 tl = Ok P /\ on_shell_future guu P p1 p2 p3 tl.
Proof.
  intros Hr HD Hs.
  assert (HS : 0 < SigmaS r th a) by (apply SigmaS_pos; lra).
  assert (Hg : metric_at (kerrE a) (mk4 t r th ph) = Ok (kn_con a 0 r th)).
  { rewrite metric_at_Ok by (apply kerr_defined; lra || assumption). rewrite kerr_meaning by (lra || assumption). reflexivity. }
  destruct (P4_kn_con _ a 0 _ r th p1 p2 p3 tl Hg) as (P & HP & H); auto; [lra|]. eauto.
Qed.
Lemma P4_sch t r th ph p1 p2 p3 tl : 2 < r -> sin th <> 0 ->
  exists guu P, metric_at schE (mk4 t r th ph) = Ok guu
   /\ P4 schE (mk4 t r th ph) p1 p2 p3 tl = Ok P /\ on_shell_future guu P p1 p2 p3 tl.
Proof.
  intros Hr Hs.
  assert (Hg : metric_at schE (mk4 t r th ph) = Ok (kn_con 0 0 r th)).
  { rewrite metric_at_Ok by (apply sch_defined; lra || assumption). rewrite sch_meaning by (lra || assumption). reflexivity. }
  destruct (P4_kn_con _ 0 0 _ r th p1 p2 p3 tl Hg) as (P & HP & H); auto; [lra|lra|unfold DeltaS; nra|]. eauto.
Qed.

(** C07: a user metric with a dr dphi (1,3) cross term *)
Definition user_cross : metricP :=
  mkQ4 (mkQ4 (Ec (-1)) (Ec 0) (Ec 0) (Ec 0)) (mkQ4 (Ec 0) (Ec 2) (Ec 0) (Ec 1))
       (mkQ4 (Ec 0) (Ec 0) (Ec 1) (Ec 0)) (mkQ4 (Ec 0) (Ec 1) (Ec 0) (Ec 2)).
Lemma P_user_refuted :
  exists (g : metricP) q guu P, metric_at g q = Ok guu /\ symm guu
    /\ P4 g q 1 0 1 true = Ok P /\ quad guu P <> - 1.
Proof.
  exists user_cross, (mkQ4 0 1 1 1).
  assert (Hm : metric_at user_cross (mkQ4 0 1 1 1) =
    Ok (mkQ4 (mkQ4 (-1) 0 0 0) (mkQ4 0 2 0 1) (mkQ4 0 0 1 0) (mkQ4 0 1 0 2))) by reflexivity.
  eexists. 
  destruct (P_residual (mkQ4 (mkQ4 (-1) 0 0 0) (mkQ4 0 2 0 1) (mkQ4 0 0 1 0) (mkQ4 0 1 0 2)) 1 0 1 true)
    as (P & HP & E1 & E2 & E3 & Q).
  - reflexivity.
  - unfold mnth; simpl; lra.
  - unfold discr, mnth; simpl; lra.
  - exists P. split; [exact Hm|]. split; [reflexivity|]. split.
    + unfold P4. rewrite Hm. exact HP.
    + rewrite Q. unfold ignored, mnth. simpl. rewrite E1, E2, E3. lra.
Qed.
