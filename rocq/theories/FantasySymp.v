(** A step of the Fantasy integrator is a symplectic map of the doubled phase space: it preserves the area form
    dq1 /\ dp1 + dq2 /\ dp2 spanned by the velocities of any two curves of initial data. *)
From Coq Require Import Reals List ZArith Lra Lia Bool.
From Coquelicot Require Import Coquelicot.
From Verif Require Import Base Calc DualModel DualSpec DualProofs DualDiff GeoUtilsModel GeoUtilsSpec GeoUtilsProofs
  FantasyModel FantasyProofs FantasyProofs2 FantasyProofs3 FantasyHam.
Import ListNotations.
Open Scope R_scope.

(** u is the velocity of the curve c at t0 *)
Definition tangent (c : R -> state) (t0 : R) (u : state) : Prop :=
  forall i j, (i < 4)%nat -> (j < 4)%nat -> is_derive (fun t => mnth (c t) i j) t0 (mnth u i j).
(** the canonical symplectic form of the doubled phase space *)
Definition symp (u v : state) : R := dot (q1 u) (p1 v) - dot (p1 u) (q1 v) + (dot (q2 u) (p2 v) - dot (p2 u) (q2 v)).

(** one stage of a step: half flows A, B and the coupling flow C *)
Inductive stage := SA (d : R) | SB (d : R) | SC (d : R).
Definition run_stage (G : metricfun) (w : R) (a : stage) (s : state) : Res state :=
  match a with SA d => apply_A G d s | SB d => apply_B G d s | SC d => Ok (flow_mixed s d w) end.
Fixpoint run_stages (G : metricfun) (w : R) (l : list stage) (s : state) : Res state :=
  match l with [] => Ok s | a :: l => let* s1 := run_stage G w a s in run_stages G w l s1 end.
(** the metric is defined at every point at which these stages evaluate it *)
Fixpoint regular (g : metricP) (w : R) (l : list stage) (s : state) : Prop :=
  match l with
  | [] => True
  | a :: l => match a with SA _ => metric_defined g (q4nth (q1 s)) | SB _ => metric_defined g (q4nth (q2 s)) | SC _ => True end
              /\ match run_stage (metricfun_of g) w a s with Ok s1 => regular g w l s1 | Err _ => True end
  end.
Definition ord2_stages (d : R) : list stage := [SA (/ 2 * d); SB (/ 2 * d); SC d; SB (/ 2 * d); SA (/ 2 * d)].
Fixpoint step_stages (ws : list R) (d : R) : list stage :=
  match ws with [] => [] | z :: ws => ord2_stages (d * z) ++ step_stages ws d end.

Lemma run_stages_app G w l1 l2 s : run_stages G w (l1 ++ l2) s = bindR (run_stages G w l1 s) (run_stages G w l2).
Proof.
  revert s; induction l1 as [|a l1 IH]; intros s; cbn [run_stages app bindR]; [reflexivity|].
  destruct (run_stage G w a s); cbn [bindR]; [apply IH|reflexivity].
Qed.
Lemma ord2_run G w d s : run_stages G w (ord2_stages d) s = ord_2 G w d s.
Proof.
  unfold ord2_stages, ord_2. cbn [run_stages run_stage]. destruct (apply_A G (/ 2 * d) s) as [s1|]; cbn [bindR]; [|reflexivity].
  destruct (apply_B G (/ 2 * d) s1) as [s2|]; cbn [bindR]; [|reflexivity].
  destruct (apply_B G (/ 2 * d) (flow_mixed s2 d w)) as [s3|]; cbn [bindR]; [|reflexivity].
  destruct (apply_A G (/ 2 * d) s3); reflexivity.
Qed.
Lemma step_run G w ws d s : run_stages G w (step_stages ws d) s = run_substeps G w ws d s.
Proof.
  revert s; induction ws as [|z ws IH]; intros s; cbn [step_stages run_substeps]; [reflexivity|].
  rewrite run_stages_app, ord2_run. destruct (ord_2 G w (d * z) s); cbn [bindR]; [apply IH|reflexivity].
Qed.

(** ---- coordinates ---- *)
Lemma tangent_flat c t0 u : tangent c t0 u <-> forall i, (i < 16)%nat -> is_derive (fun t => flat (c t) i) t0 (flat u i).
Proof.
  split.
  - intros H i Hi. unfold flat. apply (H (i / 4)%nat (i mod 4)%nat); [apply Nat.div_lt_upper_bound; lia|apply Nat.mod_upper_bound; lia].
  - intros H i j Hi Hj. assert (K := H (4 * i + j)%nat ltac:(lia)). unfold flat in K.
    replace ((4 * i + j) / 4)%nat with i in K by (rewrite (Nat.mul_comm 4 i), Nat.div_add_l, (Nat.div_small j 4) by lia; lia).
    replace ((4 * i + j) mod 4)%nat with j in K by (rewrite Nat.add_comm, (Nat.mul_comm 4 i), Nat.mod_add, Nat.mod_small by lia; reflexivity).
    exact K.
Qed.
Lemma symp_flat u v : symp u v = rsum 16 (fun i => sgn i * flat u i * flat v (conj i)).
Proof.
  unfold symp, dot, q1, p1, q2, p2.
  cbv [rsum conj sgn flat Nat.even Nat.div Nat.divmod Nat.modulo fst snd Nat.sub Nat.add q4nth]. ring.
Qed.

(** ---- a shear z -> z + d X_H(z) with X_H constant along itself ---- *)
Definition separated (H : pexpr) : Prop := forall i, (i < 16)%nat -> mentions i H = false \/ mentions (conj i) H = false.
Lemma conj_lt i : (i < 16)%nat -> (conj i < 16)%nat.
Proof. revert i. apply lt16; vm_compute; lia. Qed.
Lemma field_below H i : below 16 H = true -> below 16 (field H i) = true.
Proof. intros Hb. unfold field. cbn [below andb]. apply pd_below. exact Hb. Qed.
Lemma field_defined H i x : defined_at x H -> defined_at x (field H i).
Proof. intros Hd. unfold field. cbn [defined_at]. split; [exact I|apply pd_defined; exact Hd]. Qed.

Definition shear (H : pexpr) (d : R) (s : state) : state := unflat (fun i => flat s i + d * meaning (flat s) (field H i)).
Definition shear_tan (H : pexpr) (d : R) (s u : state) : state :=
  unflat (fun i => flat u i + d * (sgn i * rsum 16 (fun k => meaning (flat s) (pd k (pd (conj i) H)) * flat u k))).
Lemma shear_tangent H d c t0 u : below 16 H = true -> defined_at (flat (c t0)) H -> tangent c t0 u ->
  tangent (fun t => shear H d (c t)) t0 (shear_tan H d (c t0) u).
Proof.
  intros Hb Hd Hc. apply tangent_flat. intros i Hi. unfold shear, shear_tan. rewrite flat_unflat by exact Hi.
  apply (D_ext (fun t => flat (c t) i + d * meaning (flat (c t)) (field H i))).
  { intros t. rewrite flat_unflat by exact Hi. reflexivity. }
  rewrite tangent_flat in Hc. apply D_plus; [apply Hc; exact Hi|]. apply (D_scal (fun t => meaning (flat (c t)) (field H i))).
  unfold field. cbn [meaning]. apply (D_scal (fun t => meaning (flat (c t)) (pd (conj i) H))).
  rewrite (rsum_ext 16 _ (fun k => flat u k * meaning (flat (c t0)) (pd k (pd (conj i) H)))) by (intros; ring).
  apply (pd_path 16 (pd (conj i) H) (pd_below _ _ _ Hb) (fun i t => flat (c t) i) (flat u) t0).
  - intros k Hk. apply Hc. exact Hk.
  - apply pd_defined. exact Hd.
Qed.
Lemma symp_shear (M : nat -> nat -> R) d u v u' v' :
  (forall i k, M i k = M k i) -> (forall i, (i < 16)%nat -> (forall k, M i k = 0) \/ (forall k, M (conj i) k = 0)) ->
  (forall i, (i < 16)%nat -> flat u' i = flat u i + d * (sgn i * rsum 16 (fun k => M (conj i) k * flat u k))) ->
  (forall i, (i < 16)%nat -> flat v' i = flat v i + d * (sgn i * rsum 16 (fun k => M (conj i) k * flat v k))) ->
  symp u' v' = symp u v.
Proof.
  intros Hsym Hz Hu Hv. rewrite !symp_flat.
  set (a := fun j => rsum 16 (fun k => M j k * flat u k)). set (b := fun j => rsum 16 (fun k => M j k * flat v k)).
  assert (AB : rsum 16 (fun j => a j * flat v j) = rsum 16 (fun j => flat u j * b j)).
  { unfold a, b. transitivity (rsum 16 (fun j => rsum 16 (fun k => M j k * flat u k * flat v j))).
    { apply rsum_ext. intros j _. rewrite Rmult_comm, <- rsum_scal. apply rsum_ext. intros k _. ring. }
    rewrite rsum_swap. apply rsum_ext. intros j _. rewrite <- rsum_scal. apply rsum_ext. intros k _. rewrite (Hsym k j). ring. }
  assert (Z : forall i, (i < 16)%nat -> a (conj i) * b i = 0).
  { intros i Hi. destruct (Hz i Hi) as [E|E].
    - assert (b i = 0) as -> by (unfold b; apply rsum_zero; intros k _; rewrite E; ring). ring.
    - assert (a (conj i) = 0) as -> by (unfold a; apply rsum_zero; intros k _; rewrite E; ring). ring. }
  transitivity (rsum 16 (fun i => sgn i * (flat u i + d * (sgn i * a (conj i))) * (flat v (conj i) + d * (sgn (conj i) * b i)))).
  { apply rsum_ext. intros i Hi. rewrite (Hu i Hi), (Hv (conj i) (conj_lt i Hi)). unfold a, b.
    replace (conj (conj i)) with i; [reflexivity|]. revert i Hi. apply lt16; reflexivity. }
  transitivity (rsum 16 (fun i => (sgn i * flat u i * flat v (conj i) + d * (a (conj i) * flat v (conj i))) + - d * (flat u i * b i))).
  { apply rsum_ext. intros i Hi. assert (Zi := Z i Hi).
    assert (S1 : sgn i * sgn i = 1) by (unfold sgn; destruct (Nat.even (i / 4)); ring).
    assert (S2 : sgn (conj i) = - sgn i) by (revert i Hi Zi S1; apply (lt16 (fun i => a (conj i) * b i = 0 -> sgn i * sgn i = 1 -> sgn (conj i) = - sgn i)); intros; cbv [conj sgn Nat.even Nat.div Nat.divmod fst Nat.add Nat.sub]; ring).
    rewrite S2. clear -Zi S1. set (x := flat u i) in *. set (y := flat v (conj i)) in *. set (al := a (conj i)) in *. set (be := b i) in *. set (e := sgn i) in *. clearbody x y al be e.
    transitivity (e * x * y + d * (e * e) * al * y - d * (e * e) * x * be - d * d * e * (e * e) * (al * be)); [ring|]. rewrite S1, Zi. ring. }
  rewrite !rsum_plus, !rsum_scal.
  assert (RE : rsum 16 (fun i => a (conj i) * flat v (conj i)) = rsum 16 (fun i => a i * flat v i)).
  { clear. set (h := fun i => a i * flat v i). change (rsum 16 (fun i => h (conj i)) = rsum 16 h). clearbody h. clear.
    cbv [rsum conj Nat.even Nat.div Nat.divmod fst Nat.add Nat.sub]. ring. }
  rewrite RE, AB. ring.
Qed.
Lemma shear_symp H d s u v : defined_at (flat s) H -> separated H -> symp (shear_tan H d s u) (shear_tan H d s v) = symp u v.
Proof.
  intros Hd Hs. apply (symp_shear (fun i k => meaning (flat s) (pd k (pd i H))) d).
  - intros i k. apply pd_comm. exact Hd.
  - intros i Hi. destruct (Hs i Hi) as [E|E]; [left|right]; intros k; rewrite pd_comm by exact Hd; apply pd_unmentioned, mentions_pd; exact E.
  - intros i Hi. unfold shear_tan. rewrite flat_unflat by exact Hi. reflexivity.
  - intros i Hi. unfold shear_tan. rewrite flat_unflat by exact Hi. reflexivity.
Qed.
Lemma HA_separated g : well_formed g -> separated (HA g).
Proof. intros H. unfold separated, HA. intros i Hi.
  assert (C : ((i < 4 \/ 8 <= i < 12) /\ conj i = i + 4 \/ (4 <= i < 8 \/ 12 <= i) /\ conj i + 4 = i)%nat) by (revert i Hi; apply lt16; vm_compute; lia).
  destruct (le_lt_dec 8 i); destruct C as [[C1 C2]|[C1 C2]]; first [left; apply hamE_mentions; [exact H|lia|lia] | right; apply hamE_mentions; [exact H|lia|lia]]. Qed.
Lemma HB_separated g : well_formed g -> separated (HB g).
Proof. intros H. unfold separated, HB. intros i Hi.
  assert (C : ((i < 4 \/ 8 <= i < 12) /\ conj i = i + 4 \/ (4 <= i < 8 \/ 12 <= i) /\ conj i + 4 = i)%nat) by (revert i Hi; apply lt16; vm_compute; lia).
  destruct (le_lt_dec 8 i); destruct C as [[C1 C2]|[C1 C2]]; first [left; apply hamE_mentions; [exact H|lia|lia] | right; apply hamE_mentions; [exact H|lia|lia]]. Qed.

Lemma loc_and (t0 : R) (P Q : R -> Prop) : locally t0 P -> locally t0 Q -> locally t0 (fun t => P t /\ Q t).
Proof. intros. apply filter_and; assumption. Qed.
Lemma loc_imp (t0 : R) (P Q : R -> Prop) : (forall t, P t -> Q t) -> locally t0 P -> locally t0 Q.
Proof. intros. eapply filter_imp; eassumption. Qed.
Lemma loc_all (t0 : R) (P : R -> Prop) : (forall t, P t) -> locally t0 P.
Proof. intros. apply filter_forall. assumption. Qed.
Lemma metric_defined_locally g (q : R -> V4) (t0 : R) : (forall j, (j < 4)%nat -> exists l, is_derive (fun t => q4nth (q t) j) t0 l) ->
  metric_defined g (q4nth (q t0)) -> locally t0 (fun t => metric_defined g (q4nth (q t))).
Proof.
  intros Hq Hd.
  assert (Hq' : forall j, exists l, is_derive (fun t => q4nth (q t) j) t0 l).
  { intros j. destruct (le_lt_dec 4 j) as [L|L]; [|apply Hq; exact L]. destruct (Hq 3%nat ltac:(lia)) as [l Hl]. exists l.
    destruct j as [|[|[|[|j]]]]; try lia. exact Hl. }
  assert (K : forall i j, (i < 4)%nat -> (j < 4)%nat -> locally t0 (fun t => defined_at (q4nth (q t)) (mnth g i j))).
  { intros i j Hi Hj. apply (defined_locally (mnth g i j) (fun k t => q4nth (q t) k) t0 Hq'). apply Hd; assumption. }
  assert (K2 : forall i, (i < 4)%nat -> locally t0 (fun t => forall j, (j < 4)%nat -> defined_at (q4nth (q t)) (mnth g i j))).
  { intros i Hi. generalize (loc_and _ _ _ (loc_and _ _ _ (K i 0 Hi ltac:(lia)) (K i 1 Hi ltac:(lia))) (loc_and _ _ _ (K i 2 Hi ltac:(lia)) (K i 3 Hi ltac:(lia))))%nat.
    apply loc_imp. intros t [[A B] [C D]]. apply q4_cases; assumption. }
  generalize (loc_and _ _ _ (loc_and _ _ _ (K2 0 ltac:(lia)) (K2 1 ltac:(lia))) (loc_and _ _ _ (K2 2 ltac:(lia)) (K2 3 ltac:(lia))))%nat.
  apply loc_imp. intros t [[A B] [C D]] i j Hi Hj. revert i Hi. apply q4_cases; auto.
Qed.

(** ---- one stage ---- *)
Definition stage_tan (g : metricP) (w : R) (a : stage) (s u : state) : state :=
  match a with SA d => shear_tan (HA g) d s u | SB d => shear_tan (HB g) d s u | SC d => flow_mixed u d w end.
Definition stage_ok (g : metricP) (a : stage) (s : state) : Prop :=
  match a with SA _ => metric_defined g (q4nth (q1 s)) | SB _ => metric_defined g (q4nth (q2 s)) | SC _ => True end.
Definition stage_map (g : metricP) (w : R) (a : stage) (s : state) : state :=
  match a with SA d => shear (HA g) d s | SB d => shear (HB g) d s | SC d => flow_mixed s d w end.
Lemma stage_map_ok g w a s : well_formed g -> symmetric_program g -> stage_ok g a s ->
  run_stage (metricfun_of g) w a s = Ok (stage_map g w a s).
Proof.
  intros Hwf Hsym Hok. destruct a as [d|d|d]; cbn [run_stage stage_map stage_ok] in *.
  - destruct (stage_A g d s Hwf Hsym Hok) as (_ & s' & -> & E). f_equal. apply flat_inj. intros i Hi. unfold shear. rewrite flat_unflat by exact Hi. apply E. exact Hi.
  - destruct (stage_B g d s Hwf Hsym Hok) as (_ & s' & -> & E). f_equal. apply flat_inj. intros i Hi. unfold shear. rewrite flat_unflat by exact Hi. apply E. exact Hi.
  - reflexivity.
Qed.
Lemma mixed_tangent d w c t0 u : tangent c t0 u -> tangent (fun t => flow_mixed (c t) d w) t0 (flow_mixed u d w).
Proof.
  intros H. unfold flow_mixed. generalize (cos (2 * w * d)) (sin (2 * w * d)). intros co si.
  assert (K : forall i, (i < 4)%nat -> forall j, (j < 4)%nat -> is_derive (fun t => q4nth (q4nth (c t) i) j) t0 (q4nth (q4nth u i) j)) by (intros; apply H; assumption).
  assert (Q : forall q q' p p' q0 q0' p0 p0', is_derive q t0 q0 -> is_derive q' t0 q0' -> is_derive p t0 p0 -> is_derive p' t0 p0' ->
    is_derive (fun t => / 2 * (q t + q' t + co * (q t - q' t) + si * (p t - p' t))) t0 (/ 2 * (q0 + q0' + co * (q0 - q0') + si * (p0 - p0')))
    /\ is_derive (fun t => / 2 * (p t + p' t + co * (p t - p' t) - si * (q t - q' t))) t0 (/ 2 * (p0 + p0' + co * (p0 - p0') - si * (q0 - q0')))
    /\ is_derive (fun t => / 2 * (q t + q' t - co * (q t - q' t) - si * (p t - p' t))) t0 (/ 2 * (q0 + q0' - co * (q0 - q0') - si * (p0 - p0')))
    /\ is_derive (fun t => / 2 * (p t + p' t - co * (p t - p' t) + si * (q t - q' t))) t0 (/ 2 * (p0 + p0' - co * (p0 - p0') + si * (q0 - q0')))).
  { intros q q' p p' q0 q0' p0 p0' H1 H2 H3 H4.
    assert (X1 := D_scal _ _ co _ (D_minus _ _ _ _ _ H1 H2)). assert (X2 := D_scal _ _ si _ (D_minus _ _ _ _ _ H1 H2)).
    assert (X3 := D_scal _ _ co _ (D_minus _ _ _ _ _ H3 H4)). assert (X4 := D_scal _ _ si _ (D_minus _ _ _ _ _ H3 H4)).
    assert (Y1 := D_plus _ _ _ _ _ H1 H2). assert (Y2 := D_plus _ _ _ _ _ H3 H4).
    split; [|split; [|split]].
    - exact (D_scal _ _ (/ 2) _ (D_plus _ _ _ _ _ (D_plus _ _ _ _ _ Y1 X1) X4)).
    - exact (D_scal _ _ (/ 2) _ (D_minus _ _ _ _ _ (D_plus _ _ _ _ _ Y2 X3) X2)).
    - exact (D_scal _ _ (/ 2) _ (D_minus _ _ _ _ _ (D_minus _ _ _ _ _ Y1 X1) X4)).
    - exact (D_scal _ _ (/ 2) _ (D_plus _ _ _ _ _ (D_minus _ _ _ _ _ Y2 X3) X2)). }
  assert (QQ : forall j, (j < 4)%nat -> _) by (intros j Hj; exact (Q _ _ _ _ _ _ _ _ (K 0%nat ltac:(lia) j Hj) (K 2%nat ltac:(lia) j Hj) (K 1%nat ltac:(lia) j Hj) (K 3%nat ltac:(lia) j Hj))).
  clear K Q H. cbn beta in QQ.
  unfold tangent, mnth. intros i j Hi Hj. revert i Hi. 
  revert j Hj. refine (q4_cases _ _ _ _ _); apply q4_cases.
  all: match goal with |- is_derive _ _ (q4nth (q4nth _ _) ?j) => destruct (QQ j ltac:(lia)) as (Q0 & Q1 & Q2 & Q3) end.
  all: first [exact Q0 | exact Q1 | exact Q2 | exact Q3].
Qed.
Lemma mixed_symp d w u v : symp (flow_mixed u d w) (flow_mixed v d w) = symp u v.
Proof.
  assert (CS : sin (2 * w * d) * sin (2 * w * d) = 1 - cos (2 * w * d) * cos (2 * w * d)).
  { generalize (sin2_cos2 (2 * w * d)). unfold Rsqr. intros E. rewrite <- E. ring. }
  unfold flow_mixed. set (co := cos (2 * w * d)) in *. set (si := sin (2 * w * d)) in *. clearbody co si.
  unfold symp, dot, vscal, vadd, vsub, q4map, q4map2, q1, p1, q2, p2. cbn [c0 c1 c2 c3]. field [CS].
Qed.

Lemma stage_tangent g w a c t0 u : well_formed g -> symmetric_program g -> stage_ok g a (c t0) -> tangent c t0 u ->
  locally t0 (fun t => run_stage (metricfun_of g) w a (c t) = Ok (stage_map g w a (c t)))
  /\ tangent (fun t => stage_map g w a (c t)) t0 (stage_tan g w a (c t0) u).
Proof.
  intros Hwf Hsym Hok Hc.
  assert (L : locally t0 (fun t => stage_ok g a (c t))).
  { destruct a as [d|d|d]; cbn [stage_ok] in *.
    - apply (metric_defined_locally g (fun t => q1 (c t)) t0); [|exact Hok]. intros j Hj. eexists. exact (Hc 0%nat j ltac:(lia) Hj).
    - apply (metric_defined_locally g (fun t => q2 (c t)) t0); [|exact Hok]. intros j Hj. eexists. exact (Hc 2%nat j ltac:(lia) Hj).
    - apply loc_all. auto. }
  split.
  - revert L. apply loc_imp. intros t Ht. apply stage_map_ok; assumption.
  - destruct a as [d|d|d]; cbn [stage_ok stage_map stage_tan] in *.
    + apply shear_tangent; [apply hamE_below; [exact Hwf|lia|lia]| |exact Hc]. apply (stage_A g d (c t0) Hwf Hsym Hok).
    + apply shear_tangent; [apply hamE_below; [exact Hwf|lia|lia]| |exact Hc]. apply (stage_B g d (c t0) Hwf Hsym Hok).
    + apply mixed_tangent. exact Hc.
Qed.
Lemma stage_symp g w a s u v : well_formed g -> symmetric_program g -> stage_ok g a s ->
  symp (stage_tan g w a s u) (stage_tan g w a s v) = symp u v.
Proof.
  intros Hwf Hsym Hok. destruct a as [d|d|d]; cbn [stage_tan stage_ok] in *.
  - apply shear_symp; [apply (stage_A g d s Hwf Hsym Hok)|apply HA_separated; exact Hwf].
  - apply shear_symp; [apply (stage_B g d s Hwf Hsym Hok)|apply HB_separated; exact Hwf].
  - apply mixed_symp.
Qed.

(** ---- a sequence of stages ---- *)
Fixpoint stages_tan (g : metricP) (w : R) (l : list stage) (s u : state) : state :=
  match l with [] => u | a :: l => stages_tan g w l (stage_map g w a s) (stage_tan g w a s u) end.
Fixpoint stages_map (g : metricP) (w : R) (l : list stage) (s : state) : state :=
  match l with [] => s | a :: l => stages_map g w l (stage_map g w a s) end.
Lemma stages_tangent g w l : well_formed g -> symmetric_program g -> forall c t0 u, regular g w l (c t0) -> tangent c t0 u ->
  locally t0 (fun t => run_stages (metricfun_of g) w l (c t) = Ok (stages_map g w l (c t)))
  /\ tangent (fun t => stages_map g w l (c t)) t0 (stages_tan g w l (c t0) u).
Proof.
  intros Hwf Hsym. induction l as [|a l IH]; intros c t0 u Hr Hc; cbn [run_stages stages_map stages_tan].
  - split; [apply loc_all; reflexivity|exact Hc].
  - cbn [regular] in Hr. destruct Hr as [Hok Hr]. fold (stage_ok g a (c t0)) in Hok. rewrite (stage_map_ok g w a _ Hwf Hsym Hok) in Hr.
    destruct (stage_tangent g w a c t0 u Hwf Hsym Hok Hc) as [L T].
    destruct (IH (fun t => stage_map g w a (c t)) t0 _ Hr T) as [L2 T2].
    split; [|exact T2]. generalize (loc_and _ _ _ L L2). apply loc_imp. intros t [E1 E2]. rewrite E1. cbn [bindR]. exact E2.
Qed.
Lemma stages_symp g w l : well_formed g -> symmetric_program g -> forall s u v, regular g w l s ->
  symp (stages_tan g w l s u) (stages_tan g w l s v) = symp u v.
Proof.
  intros Hwf Hsym. induction l as [|a l IH]; intros s u v Hr; cbn [stages_tan]; [reflexivity|].
  cbn [regular] in Hr. destruct Hr as [Hok Hr]. fold (stage_ok g a s) in Hok. rewrite (stage_map_ok g w a _ Hwf Hsym Hok) in Hr.
  rewrite IH by exact Hr. apply stage_symp; assumption.
Qed.

(** the metric is defined wherever a step of the given order evaluates it *)
Definition regular_step (g : metricP) (w : R) (order : nat) (d : R) (s : state) : Prop := regular g w (step_stages (weights order) d) s.

Lemma integrator_symplectic (order : nat) (g : metricP) (w d : R) (f : R -> state -> Res state) :
  integrator_of order (metricfun_of g) w = Ok f -> well_formed g -> symmetric_program g ->
  forall (a b : R -> state) (t0 : R) (u v : state), a t0 = b t0 -> regular_step g w order d (a t0) ->
  tangent a t0 u -> tangent b t0 v ->
  exists (a' b' : R -> state) (u' v' : state),
    locally t0 (fun t => f d (a t) = Ok (a' t)) /\ locally t0 (fun t => f d (b t) = Ok (b' t)) /\
    tangent a' t0 u' /\ tangent b' t0 v' /\ symp u' v' = symp u v.
Proof.
  intros Hf Hwf Hsym a b t0 u v E Hr Ha Hb.
  assert (Hrun : forall s, f d s = run_stages (metricfun_of g) w (step_stages (weights order) d) s).
  { intros s. rewrite step_run. apply order_is_weights. exact Hf. }
  set (l := step_stages (weights order) d) in *.
  destruct (stages_tangent g w l Hwf Hsym a t0 u Hr Ha) as [L1 T1].
  unfold regular_step in Hr. fold l in Hr. assert (Hr' := Hr). rewrite E in Hr'.
  destruct (stages_tangent g w l Hwf Hsym b t0 v Hr' Hb) as [L2 T2].
  exists (fun t => stages_map g w l (a t)), (fun t => stages_map g w l (b t)), (stages_tan g w l (a t0) u), (stages_tan g w l (b t0) v).
  split; [|split; [|split; [exact T1|split; [exact T2|]]]].
  - revert L1. apply loc_imp. intros t Ht. rewrite Hrun. exact Ht.
  - revert L2. apply loc_imp. intros t Ht. rewrite Hrun. exact Ht.
  - rewrite <- E. apply stages_symp; assumption.
Qed.

(** a metric program without partial operations is regular for every step *)
Lemma regular_everywhere (g : metricP) : (forall q, metric_defined g q) -> forall w order d s, regular_step g w order d s.
Proof.
  intros H w order d. unfold regular_step. generalize (step_stages (weights order) d). induction l as [|a l IH]; intros s; cbn [regular]; [exact I|].
  split; [destruct a; auto|]. destruct (run_stage (metricfun_of g) w a s); auto.
Qed.
(** example: the inverse metric diag(-1, x, 1, 1) *)
Definition lin_metric : metricP := mkQ4 (mkQ4 (EConst (-1)) (EConst 0) (EConst 0) (EConst 0)) (mkQ4 (EConst 0) (EVar 1) (EConst 0) (EConst 0))
  (mkQ4 (EConst 0) (EConst 0) (EConst 1) (EConst 0)) (mkQ4 (EConst 0) (EConst 0) (EConst 0) (EConst 1)).
Lemma lin_wf : well_formed lin_metric.
Proof. intros i j Hi Hj. revert j Hj; apply q4_cases; revert i Hi; apply q4_cases; reflexivity. Qed.
Lemma lin_sym : symmetric_program lin_metric.
Proof. intros q i j Hi Hj. revert j Hj; apply q4_cases; revert i Hi; apply q4_cases; reflexivity. Qed.
Lemma lin_defined q : metric_defined lin_metric q.
Proof. intros i j Hi Hj. revert j Hj; apply q4_cases; revert i Hi; apply q4_cases; exact I. Qed.
