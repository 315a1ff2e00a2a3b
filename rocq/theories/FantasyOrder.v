(** Taylor expansion of a step of the Fantasy integrator in the step size, as a word series in the Lie derivatives of the
    three Hamiltonians. *)
From Coq Require Import Reals List ZArith Lra Lia Bool.
From Coquelicot Require Import Coquelicot.
From Verif Require Import Base Calc DualModel DualSpec DualProofs DualDiff GeoUtilsModel GeoUtilsSpec GeoUtilsProofs
  FantasyModel FantasyProofs FantasyProofs2 FantasyProofs3 FantasyHam FantasySymp ProgCont WordSeries WordOrder.
Import ListNotations.
Open Scope R_scope.

(** ---- small facts about programs ---- *)
Lemma meaning_ext_m e x y : (forall k, mentions k e = true -> x k = y k) -> meaning x e = meaning y e.
Proof.
  induction e; intros H; cbn [meaning]; cbn [mentions] in H;
    try (rewrite IHe1, IHe2; [reflexivity| |]; intros k Hk; apply H; rewrite Hk; auto using orb_true_r);
    try (rewrite IHe; [reflexivity|exact H]).
  - apply H. apply Nat.eqb_refl.
  - reflexivity.
Qed.
Lemma below_mentions N e k : below N e = true -> mentions k e = true -> (k < N)%nat.
Proof.
  induction e; cbn [below mentions]; intros Hb Hm; try (apply andb_prop in Hb as [B1 B2]); try (apply orb_prop in Hm as [Hm|Hm]); auto; try discriminate.
  apply Nat.eqb_eq in Hm. subst. apply Nat.ltb_lt. exact Hb.
Qed.
Lemma meaning_ext_b N e x y : below N e = true -> (forall k, (k < N)%nat -> x k = y k) -> meaning x e = meaning y e.
Proof. intros Hb H. apply meaning_ext_m. intros k Hk. apply H. eapply below_mentions; eassumption. Qed.
Lemma defined_ext_b N e x y : below N e = true -> (forall k, (k < N)%nat -> x k = y k) -> defined_at x e -> defined_at y e.
Proof.
  intros Hb H. revert Hb. induction e; cbn [below defined_at]; intros Hb Hd; try (apply andb_prop in Hb as [B1 B2]); try tauto;
    rewrite <- ?(meaning_ext_b N e2 x y), <- ?(meaning_ext_b N e x y) by assumption; tauto.
Qed.
Lemma esum_defined_inv n f x : defined_at x (esum n f) -> forall i, (i < n)%nat -> defined_at x (f i).
Proof. induction n as [|n IH]; intros H i Hi; [lia|]. cbn [esum defined_at] in H. destruct H as [A B]. destruct (Nat.eq_dec i n) as [->|]; [exact B|apply IH; [exact A|lia]]. Qed.
Lemma hamE_defined_inv g qb pb x : defined_at x (hamE g qb pb) -> metric_defined g (fun i => x (qb + i)%nat).
Proof.
  intros H i j Hi Hj. unfold hamE in H. cbn [defined_at] in H. destruct H as [_ H]. apply (fun H => esum_defined_inv _ _ _ H i Hi) in H.
  apply (fun H => esum_defined_inv _ _ _ H j Hj) in H. cbn [defined_at] in H. apply ren_defined. tauto.
Qed.
Lemma metric_defined_ext g x y : well_formed g -> (forall i, (i < 4)%nat -> x i = y i) -> metric_defined g x -> metric_defined g y.
Proof. intros Hwf E H i j Hi Hj. apply (defined_ext_b 4 _ x y); [rewrite <- below_vars; apply Hwf; assumption|exact E|apply H; assumption]. Qed.

(** ---- the three Hamiltonians, their flows and Lie derivatives ---- *)
Definition sqE (e : pexpr) : pexpr := EMul e e.
Definition HC (w : R) : pexpr :=
  EMul (EConst (w / 2)) (esum 4 (fun i => EAdd (sqE (ESub (EVar i) (EVar (8 + i)))) (sqE (ESub (EVar (4 + i)) (EVar (12 + i)))))).
Definition Hgen (g : metricP) (w : R) (X : gen) : pexpr := match X with GA => HA g | GB => HB g | GC => HC w end.
Definition gflow (g : metricP) (w : R) (X : gen) (t : R) (s : state) : state :=
  match X with GA => shear (HA g) t s | GB => shear (HB g) t s | GC => flow_mixed s t w end.
Definition lie (H e : pexpr) : pexpr := esum 16 (fun i => EMul (field H i) (pd i e)).
Fixpoint wlie (g : metricP) (w : R) (v : word) (e : pexpr) : pexpr := match v with [] => e | X :: v => lie (Hgen g w X) (wlie g w v e) end.

Lemma Hgen_below g w X : well_formed g -> below 16 (Hgen g w X) = true.
Proof. intros H. destruct X; [apply hamE_below; [exact H|lia|lia]|apply hamE_below; [exact H|lia|lia]|reflexivity]. Qed.
Lemma lie_below H e : below 16 H = true -> below 16 e = true -> below 16 (lie H e) = true.
Proof. intros HH He. unfold lie. apply esum_below. intros i Hi. cbn [below]. rewrite field_below, pd_below by assumption. reflexivity. Qed.
Lemma lie_defined H e x : defined_at x H -> defined_at x e -> defined_at x (lie H e).
Proof. intros HH He. unfold lie. apply esum_defined. intros i Hi. cbn [defined_at]. split; [apply field_defined; exact HH|apply pd_defined; exact He]. Qed.
Lemma wlie_below g w v e : well_formed g -> below 16 e = true -> below 16 (wlie g w v e) = true.
Proof. intros Hg He. induction v as [|X v IH]; cbn [wlie]; [exact He|]. apply lie_below; [apply Hgen_below; exact Hg|exact IH]. Qed.
(** both metric-dependent Hamiltonians are defined at this phase-space point *)
Definition hdef (g : metricP) (x : nat -> R) : Prop := defined_at x (HA g) /\ defined_at x (HB g).
Lemma Hgen_defined g w X x : hdef g x -> defined_at x (Hgen g w X).
Proof. intros [A B]. destruct X; [exact A|exact B|]. cbn. tauto. Qed.
Lemma wlie_defined g w v e x : hdef g x -> defined_at x e -> defined_at x (wlie g w v e).
Proof. intros Hg He. induction v as [|X v IH]; cbn [wlie]; [exact He|]. apply lie_defined; [apply Hgen_defined; exact Hg|exact IH]. Qed.

(** derivative of a program along a curve with velocity X_H *)
Lemma lie_path H e (s : R -> state) t0 : below 16 e = true -> defined_at (flat (s t0)) e ->
  (forall i, (i < 16)%nat -> is_derive (fun t => flat (s t) i) t0 (meaning (flat (s t0)) (field H i))) ->
  is_derive (fun t => meaning (flat (s t)) e) t0 (meaning (flat (s t0)) (lie H e)).
Proof.
  intros Hb Hd Hs. unfold lie. rewrite esum_meaning. cbn [meaning].
  apply (pd_path 16 e Hb (fun i t => flat (s t) i) (fun i => meaning (flat (s t0)) (field H i)) t0 Hs Hd).
Qed.
(** the field is constant along the shear *)
Lemma shear_const H d s i : below 16 H = true -> separated H -> meaning (flat (shear H d s)) (field H i) = meaning (flat s) (field H i).
Proof.
  intros Hb Hs. apply meaning_ext_m. intros k Hk. unfold field in Hk. cbn [mentions orb] in Hk.
  assert (Lk : (k < 16)%nat) by (eapply below_mentions; [apply (pd_below 16 (conj i)); exact Hb|exact Hk]).
  destruct (mentions k H) eqn:M; [|rewrite (mentions_pd k (conj i) H M) in Hk; discriminate].
  unfold shear. rewrite flat_unflat by exact Lk. destruct (Hs k Lk) as [E|E]; [congruence|].
  unfold field. cbn [meaning]. rewrite (pd_unmentioned _ _ _ E). ring.
Qed.
Lemma HC_field w s i : (i < 16)%nat -> meaning (flat s) (field (HC w) i) =
  match (i / 4)%nat with
  | 0%nat => w * (flat s (4 + i mod 4) - flat s (12 + i mod 4))
  | 1%nat => - (w * (flat s (i mod 4) - flat s (8 + i mod 4)))
  | 2%nat => - (w * (flat s (4 + i mod 4) - flat s (12 + i mod 4)))
  | _ => w * (flat s (i mod 4) - flat s (8 + i mod 4))
  end.
Proof. revert i. generalize (flat s). intros x. apply lt16; cbv -[Rplus Rmult Ropp Rminus Rdiv Rinv IZR]; field. Qed.
Section Rot.
Variables (w t q q' p p' : R).
Let Q1 t := / 2 * (q + q' + cos (2 * w * t) * (q - q') + sin (2 * w * t) * (p - p')).
Let P1 t := / 2 * (p + p' + cos (2 * w * t) * (p - p') - sin (2 * w * t) * (q - q')).
Let Q2 t := / 2 * (q + q' - cos (2 * w * t) * (q - q') - sin (2 * w * t) * (p - p')).
Let P2 t := / 2 * (p + p' - cos (2 * w * t) * (p - p') + sin (2 * w * t) * (q - q')).
Lemma rot_q1 : is_derive (fun t => / 2 * (q + q' + cos (2 * w * t) * (q - q') + sin (2 * w * t) * (p - p'))) t (w * (P1 t - P2 t)).
Proof. unfold P1, P2. auto_derive; [exact I|field]. Qed.
Lemma rot_p1 : is_derive (fun t => / 2 * (p + p' + cos (2 * w * t) * (p - p') - sin (2 * w * t) * (q - q'))) t (- (w * (Q1 t - Q2 t))).
Proof. unfold Q1, Q2. auto_derive; [exact I|field]. Qed.
Lemma rot_q2 : is_derive (fun t => / 2 * (q + q' - cos (2 * w * t) * (q - q') - sin (2 * w * t) * (p - p'))) t (- (w * (P1 t - P2 t))).
Proof. unfold P1, P2. auto_derive; [exact I|field]. Qed.
Lemma rot_p2 : is_derive (fun t => / 2 * (p + p' - cos (2 * w * t) * (p - p') + sin (2 * w * t) * (q - q'))) t (w * (Q1 t - Q2 t)).
Proof. unfold Q1, Q2. auto_derive; [exact I|field]. Qed.
End Rot.
Lemma gflow_deriv g w X s : well_formed g -> forall t i, (i < 16)%nat ->
  is_derive (fun t => flat (gflow g w X t s) i) t (meaning (flat (gflow g w X t s)) (field (Hgen g w X) i)).
Proof.
  intros Hwf t i Hi.
  assert (Q : forall H, below 16 H = true -> separated H -> is_derive (fun t => flat (shear H t s) i) t (meaning (flat (shear H t s)) (field H i))).
  { intros H Hb Hs. rewrite shear_const by assumption. apply (D_ext (fun t => flat s i + t * meaning (flat s) (field H i))).
    { intros u. unfold shear. rewrite flat_unflat by exact Hi. reflexivity. }
    generalize (meaning (flat s) (field H i)) (flat s i). intros a b. auto_derive; [exact I|ring]. }
  destruct X; cbn [gflow Hgen].
  - apply Q; [apply (Hgen_below g w GA Hwf)|apply HA_separated; exact Hwf].
  - apply Q; [apply (Hgen_below g w GB Hwf)|apply HB_separated; exact Hwf].
  - rewrite HC_field by exact Hi. clear Q. revert i Hi.
    apply lt16; first [ exact (rot_q1 w t _ _ _ _) | exact (rot_p1 w t _ _ _ _) | exact (rot_q2 w t _ _ _ _) | exact (rot_p2 w t _ _ _ _) ].
Qed.
Lemma gflow_0 g w X s : gflow g w X 0 s = s.
Proof.
  destruct X; cbn [gflow].
  - apply flat_inj. intros i Hi. unfold shear. rewrite flat_unflat by exact Hi. ring.
  - apply flat_inj. intros i Hi. unfold shear. rewrite flat_unflat by exact Hi. ring.
  - apply mixed_zero.
Qed.
