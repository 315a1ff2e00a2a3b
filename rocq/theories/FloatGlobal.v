(** Rounding errors of the integrator: each floating-point step is within a constant times the unit roundoff of the exact step,
    uniformly along a geodesic; accumulated over N steps of size h the computed trajectory is within C (e0 + h^n + u / h). *)
From Coq Require Import String Reals List ZArith Lra Lia Bool.
From Coquelicot Require Import Coquelicot.
From Verif Require Import Base Calc DualModel DualSpec DualProofs DualDiff GeoUtilsModel GeoUtilsSpec GeoUtilsProofs GeodesicModel GeodesicProofs
  FantasyModel FantasyProofs FantasyProofs2 FantasyProofs3 FantasyHam FantasySymp ProgCont WordSeries WordOrder FantasyOrder FantasyOrder2 FantasyOrder3 FantasyOrder4 FantasyGlobal FantasyGlobal2 FantasyGlobal3
  FloatModel FloatExact FloatTrack.
Import ListNotations.
Open Scope R_scope.

(** exact arithmetic has unit roundoff 0 *)
Lemma rounds_0 x : rounds 0 (Ok x) x.
Proof. exists x. split; [reflexivity|]. rewrite Rminus_eq_0, Rabs_R0. lra. Qed.
Lemma exact_accurate : accurate 0 exact.
Proof.
  split; unfold exact; cbn [a_num a_add a_sub a_mul a_div a_pow a_powr a_sin a_cos a_tan a_log a_exp a_sqrt a_dot]; intros; try apply rounds_0.
  - rewrite fdiv_ok by assumption. apply rounds_0.
  - rewrite fpowZ_ok by assumption. apply rounds_0.
  - rewrite fpowR_ok by assumption. apply rounds_0.
  - rewrite fdiv_ok by assumption. apply rounds_0.
  - unfold flog. destruct (Rlt_dec 0 x) as [L|L]; [|contradiction]. apply rounds_0.
  - unfold np_sqrt. destruct (Rle_dec 0 x) as [L|L]; [|lra]. apply rounds_0.
  - exists (dot v w). split; [reflexivity|]. rewrite Rminus_eq_0, Rabs_R0. lra.
Qed.
(** a larger unit roundoff is a weaker assumption *)
Lemma rounds_le u u' r x : u <= u' -> rounds u r x -> rounds u' r x.
Proof. intros H (v & E & B). exists v. split; [exact E|]. eapply Rle_trans; [exact B|]. apply Rmult_le_compat_r; [generalize (Rabs_pos x); lra|exact H]. Qed.
Lemma accurate_le u u' A : u <= u' -> accurate u A -> accurate u' A.
Proof.
  intros H [H1 H2 H3 H4 H5 H6 H7 H8 H9 H10 H11 H12 H13 H14].
  assert (M : forall x, 0 <= x -> u' * x <= 1 -> u * x <= 1) by (intros x Hx Q; eapply Rle_trans; [apply Rmult_le_compat_r; [exact Hx|exact H]|exact Q]).
  assert (P : forall x, u' * Rabs x <= 1 -> u * Rabs x <= 1) by (intros x; apply M, Rabs_pos).
  split; intros.
  1-13: apply (rounds_le u u'); [exact H|]; auto.
  - apply H12. apply M; [apply Rlt_le, exp_pos|assumption].
  - apply H13; [assumption|]. apply M; [apply sqrt_pos|assumption].
  - assert (A0 : 0 <= absdot v w) by (unfold absdot; repeat apply Rplus_le_le_0_compat; apply Rabs_pos).
    destruct (H14 v w) as (d & E & B); [apply M; assumption|]. exists d. split; [exact E|]. eapply Rle_trans; [exact B|]. apply Rmult_le_compat_r; lra.
Qed.

(** ---- indices: an arithmetic, and a float input near an exact one ---- *)
Record idx := mkidx { x_u : R; x_A : arith; x_d' : R; x_d : R; x_s' : state; x_s : state }.
(** all indices with u < r, inputs within u, exact inputs within r of the centre *)
Definition inF (d0 : R) (s0 : state) (r : R) (j : idx) : Prop :=
  0 <= x_u j < r /\ accurate (x_u j) (x_A j) /\ Rabs (x_d' j - x_d j) <= x_u j /\ within (x_u j) (x_s' j) (x_s j) /\ Rabs (x_d j - d0) < r /\ close r s0 (x_s j).
Definition FN (d0 : R) (s0 : state) (P : idx -> Prop) : Prop := exists r, 0 < r /\ forall j, inF d0 s0 r j -> P j.
Lemma inF_le d0 s0 r r' j : r <= r' -> inF d0 s0 r j -> inF d0 s0 r' j.
Proof.
  intros H (H1 & H2 & H3 & H4 & H5 & H6). split; [lra|]. split; [exact H2|]. split; [exact H3|]. split; [exact H4|]. split; [lra|]. intros i Hi. specialize (H6 i Hi). lra.
Qed.
Global Instance FN_filter d0 s0 : Filter (FN d0 s0).
Proof.
  split.
  - exists 1. split; [lra|]. auto.
  - intros P Q (r1 & R1 & H1) (r2 & R2 & H2). exists (Rmin r1 r2). split; [apply Rmin_pos; assumption|]. intros j Hj.
    split; [apply H1; eapply inF_le; [apply Rmin_l|exact Hj]|apply H2; eapply inF_le; [apply Rmin_r|exact Hj]].
  - intros P Q H (r & Hr & HP). exists r. split; [exact Hr|]. intros j Hj. apply H, HP, Hj.
Qed.
Section FN.
Variables (d0 : R) (s0 : state).
Let F := FN d0 s0.
Lemma FN_u0 : F (fun j => 0 <= x_u j).
Proof. exists 1. split; [lra|]. intros j Hj. apply Hj. Qed.
Lemma FN_u : filterlim x_u F (locally 0).
Proof.
  intros P [e HP]. exists e. split; [apply cond_pos|]. intros j Hj. apply HP. destruct Hj as ((H1 & H2) & _). unfold ball; cbn; unfold AbsRing_ball, abs, minus, plus, opp; cbn.
  rewrite Ropp_0, Rplus_0_r, Rabs_right by lra. exact H2.
Qed.
Lemma FN_A : F (fun j => accurate (x_u j) (x_A j)).
Proof. exists 1. split; [lra|]. intros j Hj. apply Hj. Qed.
Lemma FN_d : nr F x_u x_d' x_d d0.
Proof.
  split.
  - intros P [e HP]. exists e. split; [apply cond_pos|]. intros j Hj. apply HP. apply Hj.
  - exists 1. split; [lra|]. exists 1. split; [lra|]. intros j Hj. rewrite Rmult_1_l. apply Hj.
Qed.
Lemma FN_s : nrM F x_u x_s' x_s s0.
Proof.
  intros i k Hi Hk. split.
  - intros P [e HP]. exists e. split; [apply cond_pos|]. intros j Hj. apply HP. destruct Hj as (_ & _ & _ & _ & _ & H). assert (Q := H (4 * i + k)%nat ltac:(lia)). rewrite !flat_mnth in Q by assumption. exact Q.
  - exists 1. split; [lra|]. exists 1. split; [lra|]. intros j Hj. rewrite Rmult_1_l. destruct Hj as (_ & _ & _ & H & _). assert (Q := H (4 * i + k)%nat ltac:(lia)). rewrite !flat_mnth in Q by assumption. exact Q.
Qed.
End FN.
(** a common constant for sixteen components *)
Lemma nrM_within (d0 : R) s0 v x l : nrM (FN d0 s0) x_u v x l -> exists C, 0 <= C /\ FN d0 s0 (fun j => within (C * x_u j) (v j) (x j)).
Proof.
  intros H.
  assert (K : forall n, (n <= 16)%nat -> exists C, 0 <= C /\ FN d0 s0 (fun j => forall i, (i < n)%nat -> Rabs (flat (v j) i - flat (x j) i) <= C * x_u j)).
  { induction n as [|n IH]; intros Hn. { exists 0. split; [lra|]. apply filter_forall. intros; lia. }
    destruct (IH ltac:(lia)) as (C & HC & H1).
    assert (Hi : (n / 4 < 4)%nat) by (apply Nat.div_lt_upper_bound; lia). assert (Hk : (n mod 4 < 4)%nat) by (apply Nat.mod_upper_bound; lia).
    destruct (H (n / 4)%nat (n mod 4)%nat Hi Hk) as [_ (C' & HC' & H2)].
    exists (C + C'). split; [lra|]. generalize (filter_and _ _ (filter_and _ _ H1 H2) (FN_u0 d0 s0)). apply filter_imp. intros j [[X1 X2] X0] i Hi'. rewrite Rmult_plus_distr_r.
    assert (P1 : 0 <= C * x_u j) by (apply Rmult_le_pos; assumption). assert (P2 : 0 <= C' * x_u j) by (apply Rmult_le_pos; assumption).
    destruct (Nat.eq_dec i n) as [-> |Ne]; [|specialize (X1 i ltac:(lia)); lra]. unfold mnth in X2. unfold flat. lra. }
  destruct (K 16%nat (le_n _)) as (C & HC & HH). exists C. split; [exact HC|exact HH].
Qed.
(** one step *)
Lemma step_track order g w d0 s0 : well_formed g -> (order = 2 \/ order = 4 \/ order = 6 \/ order = 8)%nat -> defN order g w d0 s0 ->
  exists r C, 0 < r /\ 0 <= C /\ forall j, inF d0 s0 r j -> exists y, stepA (x_A j) order g w (x_d' j) (x_s' j) = Ok y /\ within (C * x_u j) y (mapN order g w (x_d j) (x_s j)).
Proof.
  intros Hwf Ho Hd.
  destruct (step_ok (FN d0 s0) x_u x_A (FN_u0 d0 s0) (FN_u d0 s0) (FN_A d0 s0) order g w Hwf Ho x_d' x_d d0 x_s' x_s s0 Hd (FN_d d0 s0) (FN_s d0 s0)) as (v & E & N).
  destruct (nrM_within d0 s0 _ _ _ N) as (C & HC & W). unfold evok in E. destruct (filter_and _ _ E W) as (r & Hr & H).
  exists r, C. split; [exact Hr|]. split; [exact HC|]. intros j Hj. destruct (H j Hj) as [E1 W1]. exists (v j). split; [exact E1|exact W1].
Qed.
Lemma state_ext (a b : state) : (forall i, (i < 16)%nat -> flat a i = flat b i) -> a = b.
Proof.
  intros H. assert (E : forall i k, (i < 4)%nat -> (k < 4)%nat -> mnth a i k = mnth b i k) by (intros i k Hi Hk; rewrite <- !flat_mnth by assumption; apply H; lia).
  assert (V : forall x y : V4, (forall k, (k < 4)%nat -> q4nth x k = q4nth y k) -> x = y).
  { intros x y Q. apply Q4_eq; [apply (Q 0%nat)|apply (Q 1%nat)|apply (Q 2%nat)|apply (Q 3%nat)]; lia. }
  apply Q4_eq; apply V; intros k Hk; [apply (E 0%nat)|apply (E 1%nat)|apply (E 2%nat)|apply (E 3%nat)]; try exact Hk; lia.
Qed.
Lemma within_0 a b : within 0 a b -> a = b.
Proof. intros H. apply state_ext. intros i Hi. assert (Q := H i Hi). assert (P := Rabs_pos (flat a i - flat b i)); apply Rminus_diag_uniq; apply Rabs_eq_0; lra. Qed.
Lemma orders_cases order g w f : integrator_of order g w = Ok f -> (order = 2 \/ order = 4 \/ order = 6 \/ order = 8)%nat.
Proof. intros H. destruct (supported_orders _ _ _ _ H) as [E|[E|[E|[E|[]]]]]; subst; auto. Qed.
(** the exact integrator is that map wherever the metric is defined along the step *)
Lemma step_exact order g w f d s : integrator_of order (metricfun_of g) w = Ok f -> well_formed g -> defN order g w d s -> f d s = Ok (mapN order g w d s).
Proof.
  intros Hf Hwf Hd. assert (Ho := orders_cases _ _ _ _ Hf). destruct (step_track order g w d s Hwf Ho Hd) as (r & C & Hr & HC & H).
  destruct (H (mkidx 0 exact d d s s)) as (y & E & W).
  { split; cbn; [lra|]. split; [apply exact_accurate|]. rewrite !Rminus_eq_0, !Rabs_R0. split; [lra|]. split; [|split; [exact Hr|]]; intros i Hi; rewrite Rminus_eq_0, Rabs_R0; lra. }
  cbn in E, W. rewrite Rmult_0_r in W. apply within_0 in W. subst y. unfold stepA in E. assert (X := integrator_exact order g w). rewrite Hf in X. destruct (integrator_ofA exact order g w) as [fA|]; [|contradiction].
  cbn [bindR] in E. rewrite X in E. exact E.
Qed.
Lemma mapA_0 g s : mapA g 0 s = s.
Proof. destruct s as [a b c d]. unfold mapA, q1, p1, q2, p2. cbn [c0 c1 c2 c3]. f_equal; apply Q4_eq; cbn [vsub vadd vscal q4map q4map2 c0 c1 c2 c3]; ring. Qed.
Lemma mapB_0 g s : mapB g 0 s = s.
Proof. destruct s as [a b c d]. unfold mapB, q1, p1, q2, p2. cbn [c0 c1 c2 c3]. f_equal; apply Q4_eq; cbn [vsub vadd vscal q4map q4map2 c0 c1 c2 c3]; ring. Qed.
Lemma mixed_0 s w : flow_mixed s 0 w = s.
Proof.
  destruct s as [a b c d]. unfold flow_mixed, q1, p1, q2, p2. cbn [c0 c1 c2 c3]. rewrite Rmult_0_r, cos_0, sin_0.
  f_equal; apply Q4_eq; cbn [vsub vadd vscal q4map q4map2 c0 c1 c2 c3]; field.
Qed.
Lemma map2_0 g w s : map2 g w 0 s = s.
Proof. unfold map2. rewrite Rmult_0_r, mapA_0, !mapB_0, mixed_0, ?mapB_0. rewrite ?mapA_0. reflexivity. Qed.
Lemma def2_0 g w s : metric_defined g (q4nth (q1 s)) -> metric_defined g (q4nth (q2 s)) -> def2 g w 0 s.
Proof. intros H1 H2. unfold def2. rewrite Rmult_0_r, mapA_0, mapB_0, mixed_0, ?mapB_0. tauto. Qed.
Lemma map3_0 order f s : (forall s, f 0 s = s) -> map3 order f 0 s = s.
Proof. intros H. unfold map3. rewrite !Rmult_0_l, !H. reflexivity. Qed.
Lemma def3_0 order f (D : R -> state -> Prop) s : (forall s, f 0 s = s) -> D 0 s -> def3 order f D 0 s.
Proof. intros H HD. unfold def3. rewrite !Rmult_0_l, !H. tauto. Qed.
Lemma defN_0 order g w s : (order = 2 \/ order = 4 \/ order = 6 \/ order = 8)%nat -> metric_defined g (q4nth (q1 s)) -> metric_defined g (q4nth (q2 s)) -> defN order g w 0 s.
Proof.
  intros Ho H1 H2. assert (M := map2_0 g w). assert (D := def2_0 g w s H1 H2).
  assert (M1 : forall o s, map3 o (map2 g w) 0 s = s) by (intros o x; apply map3_0, M).
  assert (M2 : forall o s, map3 o (map3 o (map2 g w)) 0 s = s) by (intros o x; apply map3_0; intros; apply M1).
  destruct Ho as [-> |[-> |[-> | ->]]]; cbn [defN]; repeat apply def3_0; try assumption; intros; auto.
Qed.

(** ---- a floating-point step near the exact solution ---- *)
Definition track (order : nat) (g : metricP) (w : R) (f : R -> state -> Res state) (s : R -> state) (rho C t : R) : Prop :=
  forall u A d y, 0 <= u < rho -> accurate u A -> Rabs d < rho -> close rho (s t) y ->
  exists y' x', stepA A order g w d y = Ok y' /\ f d y = Ok x' /\ within (C * u) y' x'.
Lemma track_le order g w f s rho C t rho' C' : track order g w f s rho C t -> rho' <= rho -> C <= C' -> track order g w f s rho' C' t.
Proof.
  intros H H1 H2 u A d y Hu HA Hd Hy. destruct (H u A d y ltac:(lra) HA ltac:(lra)) as (y' & x' & E1 & E2 & W); [intros i Hi; specialize (Hy i Hi); lra|].
  exists y', x'. split; [exact E1|]. split; [exact E2|]. intros i Hi. eapply Rle_trans; [apply W; exact Hi|]. apply Rmult_le_compat_r; [apply Hu|exact H2].
Qed.
Lemma inF_refl u A d y r s0 : 0 <= u < r -> accurate u A -> Rabs d < r -> close r s0 y -> inF 0 s0 r (mkidx u A d d y y).
Proof.
  intros Hu HA Hd Hy. split; cbn; [exact Hu|]. split; [exact HA|]. rewrite Rminus_eq_0, Rabs_R0, Rminus_0_r. split; [lra|]. split; [intros i Hi; rewrite Rminus_eq_0, Rabs_R0; lra|]. split; assumption.
Qed.
Lemma track_near order g w f (s : R -> state) x : integrator_of order (metricfun_of g) w = Ok f -> well_formed g ->
  metric_defined g (q4nth (q1 (s x))) -> metric_defined g (q4nth (q2 (s x))) -> (forall i, (i < 16)%nat -> continuous (fun t => flat (s t) i) x) ->
  exists rho C, 0 < rho /\ 0 <= C /\ forall t, Rabs (t - x) < rho -> track order g w f s rho C t.
Proof.
  intros Hf Hwf H1 H2 Hc. assert (Ho := orders_cases _ _ _ _ Hf).
  destruct (step_track order g w 0 (s x) Hwf Ho (defN_0 order g w (s x) Ho H1 H2)) as (r & C & Hr & HC & H).
  destruct (uniform_below (fun i e _ => forall t, Rabs (t - x) < e -> Rabs (flat (s t) i - flat (s x) i) < r / 2) 16) as (e & M & He & _ & HE).
  { intros k a b _ _ _ HP Hab _ t Ht. apply HP. lra. }
  { intros i Hi. destruct (Hc i Hi (fun y => Rabs (y - flat (s x) i) < r / 2)) as [e E]. { exists (mkposreal (r / 2) ltac:(lra)). intros y Hy. exact Hy. }
    exists e, 0. split; [apply cond_pos|]. split; [lra|]. intros t Ht. apply E. exact Ht. }
  set (rho := Rmin e (r / 2)). assert (P : 0 < rho) by (apply Rmin_pos; lra). assert (P1 : rho <= e) by apply Rmin_l. assert (P2 : rho <= r / 2) by apply Rmin_r. clearbody rho.
  exists rho, C. split; [exact P|]. split; [exact HC|]. intros t Ht u A d y Hu HA Hd Hy.
  assert (Hy' : close r (s x) y). { intros i Hi. assert (Q := Hy i Hi). assert (Q' := HE i Hi t ltac:(lra)). apply Rabs_def2 in Q. apply Rabs_def2 in Q'. apply Rabs_def1; lra. }
  destruct (H _ (inF_refl u A d y r (s x) ltac:(lra) HA ltac:(lra) Hy')) as (y' & E1 & W1). cbn in E1, W1.
  destruct (H _ (inF_refl 0 exact d y r (s x) ltac:(lra) exact_accurate ltac:(lra) Hy')) as (x' & E2 & W2). cbn in E2, W2. rewrite Rmult_0_r in W2. apply within_0 in W2. subst x'.
  exists y', (mapN order g w d y). split; [exact E1|]. split; [|exact W1].
  unfold stepA in E2. assert (X := integrator_exact order g w). rewrite Hf in X. destruct (integrator_ofA exact order g w) as [fA|]; [|contradiction]. cbn [bindR] in E2. rewrite X in E2. exact E2.
Qed.
Lemma track_compact order g w f s a b : a <= b ->
  (forall x, a <= x <= b -> exists rho C, 0 < rho /\ 0 <= C /\ forall t, Rabs (t - x) < rho -> track order g w f s rho C t) ->
  exists rho C, 0 < rho /\ 0 <= C /\ forall t, a <= t <= b -> track order g w f s rho C t.
Proof.
  intros Hab Hloc. apply (real_induction (fun x y => exists rho C, 0 < rho /\ 0 <= C /\ forall t, x <= t <= y -> track order g w f s rho C t) a b Hab).
  - intros x y x' y' (rho & C & A & B & D) H1 H2. exists rho, C. repeat (split; [assumption|]). intros t Ht. apply D. lra.
  - intros x y z Hy (rho & C & A & B & D) (rho' & C' & A' & B' & D').
    exists (Rmin rho rho'), (Rmax C C'). split; [apply Rmin_pos; assumption|]. split; [eapply Rle_trans; [exact B|apply Rmax_l]|].
    intros t Ht. destruct (Rle_dec t y) as [K|K].
    + eapply track_le; [apply D; lra|apply Rmin_l|apply Rmax_l].
    + eapply track_le; [apply D'; lra|apply Rmin_r|apply Rmax_r].
  - intros x Hx. destruct (Hloc x Hx) as (rho & C & A & B & D). exists (rho / 2). split; [lra|]. exists rho, C. repeat (split; [assumption|]). intros t Ht. apply D. apply Rabs_def1; lra.
Qed.

(** ---- accumulation of truncation and rounding errors ---- *)
Lemma exp_pow_bound L h T k : 0 <= L -> 0 <= h -> INR k * h <= T -> (1 + L * h) ^ k <= exp (L * T).
Proof.
  intros HL Hh Hk. assert (Lh : 0 <= L * h) by (apply Rmult_le_pos; lra).
  assert (P : forall j, (1 + L * h) ^ j <= exp (INR j * (L * h))).
  { induction j as [|j IH]; [cbn; rewrite Rmult_0_l, exp_0; lra|]. rewrite S_INR. cbn [pow]. replace ((INR j + 1) * (L * h)) with (L * h + INR j * (L * h)) by ring. rewrite exp_plus.
    apply Rmult_le_compat; [lra|apply pow_le; lra| |exact IH]. apply exp_ineq1_le. }
  eapply Rle_trans; [apply P|]. assert (X : INR k * (L * h) <= L * T) by (replace (INR k * (L * h)) with (L * (INR k * h)) by ring; apply Rmult_le_compat_l; lra).
  destruct X as [X|X]; [apply Rlt_le, exp_increasing, X|rewrite X; lra].
Qed.
Lemma converge_rounded order g w f n s T rho M L C : 0 < T -> 0 < rho -> 0 <= M -> 0 <= L -> 0 <= C ->
  (forall t, 0 <= t <= T -> good f n s rho M L t) -> (forall t, 0 <= t <= T -> track order g w f s rho C t) ->
  forall u A, 0 <= u < rho -> accurate u A -> forall h N e0 y0, 0 < h < rho -> INR N * h <= T -> 0 <= e0 -> within e0 y0 (s 0) ->
  (e0 + T * (M * h ^ n + C * (u / h))) * exp (L * T) < rho ->
  exists l, length l = N /\ statesA (fun y => stepA A order g w h y) N y0 = Ok l /\
    forall j y, nth_error l j = Some y -> within ((e0 + T * (M * h ^ n + C * (u / h))) * exp (L * T)) y (s (INR (S j) * h)).
Proof.
  intros HT Hr HM HL HC HG HK u A Hu HA h N e0 y0 Hh HN He0 Hy0 HB. set (E := M * h ^ n + C * (u / h)) in *. set (B := (e0 + T * E) * exp (L * T)) in *.
  assert (Ph : 0 < h) by lra. assert (Ah : Rabs h = h) by (apply Rabs_right; lra).
  assert (PE : 0 <= E). { unfold E. apply Rplus_le_le_0_compat; apply Rmult_le_pos; try assumption; [apply pow_le; lra|]. apply Rmult_le_pos; [apply Hu|apply Rlt_le, Rinv_0_lt_compat; exact Ph]. }
  assert (hN : forall k, (k <= N)%nat -> 0 <= INR k * h <= T).
  { intros k Hk. assert (P := pos_INR k). split; [apply Rmult_le_pos; lra|]. apply le_INR in Hk. eapply Rle_trans; [|exact HN]. apply Rmult_le_compat_r; lra. }
  set (err := fun k : nat => (e0 + INR k * h * E) * (1 + L * h) ^ k).
  assert (Lh : 0 <= L * h) by (apply Rmult_le_pos; lra).
  assert (EB : forall k, (k <= N)%nat -> 0 <= err k <= B).
  { intros k Hk. assert (Q := hN k Hk). assert (E1 : 1 <= (1 + L * h) ^ k) by (apply pow_R1_Rle; lra). assert (E2 := exp_pow_bound L h T k HL (Rlt_le _ _ Ph) (proj2 Q)).
    assert (Q1 : 0 <= INR k * h * E) by (apply Rmult_le_pos; lra). assert (Q2 : INR k * h * E <= T * E) by (apply Rmult_le_compat_r; lra).
    unfold err, B. split; [apply Rmult_le_pos; lra|]. apply Rmult_le_compat; lra. }
  assert (ES : forall k, (1 + L * h) * err k + h * E <= err (S k)).
  { intros k. unfold err. rewrite S_INR. cbn [pow]. assert (E1 : 1 <= (1 + L * h) ^ k) by (apply pow_R1_Rle; lra).
    assert (E2 : 1 <= (1 + L * h) * (1 + L * h) ^ k) by nra. assert (Q : 0 <= h * E) by (apply Rmult_le_pos; lra).
    replace ((e0 + (INR k + 1) * h * E) * ((1 + L * h) * (1 + L * h) ^ k)) with ((1 + L * h) * ((e0 + INR k * h * E) * (1 + L * h) ^ k) + h * E * ((1 + L * h) * (1 + L * h) ^ k)) by ring.
    apply Rplus_le_compat_l. rewrite <- (Rmult_1_r (h * E)) at 1. apply Rmult_le_compat_l; assumption. }
  assert (K : forall m k y, (k + m <= N)%nat -> within (err k) y (s (INR k * h)) ->
    exists l, length l = m /\ statesA (fun y => stepA A order g w h y) m y = Ok l /\ forall j z, nth_error l j = Some z -> within (err (S (k + j))) z (s (INR (S (k + j)) * h))).
  { induction m as [|m IH]; intros k y Hk Hy.
    - exists []. split; [reflexivity|]. split; [reflexivity|]. intros [|j] z Hz; discriminate.
    - assert (Ht := hN k ltac:(lia)). destruct (HG (INR k * h) Ht) as [G1 G2].
      assert (Cy : close rho (s (INR k * h)) y) by (intros i Hi; eapply Rle_lt_trans; [apply Hy; exact Hi|]; assert (Q := EB k ltac:(lia)); lra).
      destruct (G1 h ltac:(rewrite Ah; lra)) as (x' & Ex & Wx).
      destruct (G2 h y (s (INR k * h)) ltac:(rewrite Ah; lra) Cy) as (y' & x'' & Ey & Ex' & Wy). { intros i Hi. rewrite Rminus_eq_0, Rabs_R0. exact Hr. }
      rewrite Ex in Ex'. apply Ok_inj in Ex'. subst x''. specialize (Wy _ Hy). rewrite Ah in Wx, Wy.
      destruct (HK (INR k * h) Ht u A h y Hu HA ltac:(rewrite Ah; lra) Cy) as (z' & y'' & Ez & Ey' & Wz). rewrite Ey in Ey'. apply Ok_inj in Ey'. subst y''.
      assert (W : within (err (S k)) z' (s (INR (S k) * h))).
      { intros i Hi. rewrite S_INR, Rmult_plus_distr_r, Rmult_1_l. eapply Rle_trans; [|apply ES]. assert (A1 := Wx i Hi). assert (A2 := Wy i Hi). assert (A3 := Wz i Hi).
        replace (flat z' i - flat (s (INR k * h + h)) i) with ((flat z' i - flat y' i) + ((flat y' i - flat x' i) + (flat x' i - flat (s (INR k * h + h)) i))) by ring.
        eapply Rle_trans; [apply Rabs_triang|]. assert (A4 := Rabs_triang (flat y' i - flat x' i) (flat x' i - flat (s (INR k * h + h)) i)).
        assert (EE : h * E = M * h ^ S n + C * u) by (unfold E; cbn [pow]; field; lra). lra. }
      destruct (IH (S k) z' ltac:(lia) W) as (l & Ll & Cl & Wl). exists (z' :: l). split; [cbn; congruence|]. split; [cbn [statesA]; rewrite Ez; cbn [bindR]; rewrite Cl; reflexivity|].
      intros [|j] z Hz; cbn [nth_error] in Hz; [injection Hz as <-; rewrite Nat.add_0_r; exact W|]. assert (Q := Wl j z Hz). replace (k + S j)%nat with (S k + j)%nat by lia. exact Q. }
  destruct (K N 0%nat y0 ltac:(lia)) as (l & Ll & Cl & Wl).
  { intros i Hi. unfold err. cbn [INR]. rewrite !Rmult_0_l, Rplus_0_r. cbn [pow]. rewrite Rmult_1_r. apply Hy0. exact Hi. }
  exists l. split; [exact Ll|]. split; [exact Cl|]. intros j y Hj i Hi. cbn [Nat.add] in Wl. eapply Rle_trans; [apply (Wl j y Hj i Hi)|]. apply EB.
  assert (X : (j < length l)%nat) by (apply nth_error_Some; congruence). lia.
Qed.
(** the doubled curve *)
Lemma doubled_continuous g q p x : locally x (hamilton g q p) -> forall i, (i < 16)%nat -> continuous (fun t => flat (doubled (q t) (p t)) i) x.
Proof.
  intros H. assert (Hx := locally_singleton _ _ H).
  assert (Q : forall k, (k < 4)%nat -> continuous (fun t => q4nth (q t) k) x) by (intros k Hk; eapply D_continuous; apply (Hx k Hk)).
  assert (P : forall k, (k < 4)%nat -> continuous (fun t => q4nth (p t) k) x) by (intros k Hk; destruct (Hx k Hk) as [_ (D & _ & D2)]; eapply D_continuous; apply D2).
  apply lt16; first [apply (Q 0%nat)|apply (Q 1%nat)|apply (Q 2%nat)|apply (Q 3%nat)|apply (P 0%nat)|apply (P 1%nat)|apply (P 2%nat)|apply (P 3%nat)]; lia.
Qed.
Lemma doubled_within e q p q' p' : (forall i, (i < 4)%nat -> Rabs (q4nth q i - q4nth q' i) <= e /\ Rabs (q4nth p i - q4nth p' i) <= e) -> within e (doubled q p) (doubled q' p').
Proof. intros H. unfold within. apply lt16; first [apply (H 0%nat)|apply (H 1%nat)|apply (H 2%nat)|apply (H 3%nat)]; lia. Qed.
Lemma trajectory_rounded order g w f n (q p : R -> V4) T :
  integrator_of order (metricfun_of g) w = Ok f -> n = 2%nat \/ (order = 4 /\ n = 4)%nat ->
  well_formed g -> symmetric_program g -> 0 < T -> geodesic_on g q p T ->
  exists K r, 0 <= K /\ 0 < r /\ forall u A, 0 <= u -> accurate u A -> forall h N e0 q0 p0, 0 < h <= r -> (0 < N)%nat -> INR N * h <= T ->
  (forall i, (i < 4)%nat -> Rabs (q4nth q0 i - q4nth (q 0) i) <= e0 /\ Rabs (q4nth p0 i - q4nth (p 0) i) <= e0) -> e0 + u / h <= r ->
  exists rows, trajectoryA A g q0 p0 false N h order w = Ok rows /\ length rows = N /\
  forall k row, nth_error rows k = Some row -> forall i, (i < 4)%nat ->
    Rabs (q4nth (fst row) i - q4nth (q (INR (S k) * h)) i) <= K * (e0 + h ^ n + u / h) /\
    Rabs (q4nth (snd row) i - q4nth (p (INR (S k) * h)) i) <= K * (e0 + h ^ n + u / h).
Proof.
  intros Hf Hn Hwf Hsym HT Hg. set (s := fun t => doubled (q t) (p t)).
  assert (n0 : (0 < n)%nat) by (destruct Hn as [-> |[_ ->]]; lia).
  destruct (good_compact f n s 0 T ltac:(lra)) as (rho1 & M & L & Hr1 & HM & HL & HG1).
  { intros x Hx. destruct (Hg x Hx) as [Hd Hx']. apply hamilton_shift in Hx'.
    destruct (good_near order g w f n (fun u => s (x + u)) Hf Hwf Hsym (order_table order g w f Hf n Hn)) as (rho & M & L & A & B & C & D).
    - apply (geodesic_solves g w (fun u => q (x + u)) (fun u => p (x + u)) Hwf Hsym); [rewrite Rplus_0_r; exact Hd|exact Hx'].
    - unfold s. rewrite Rplus_0_r. apply doubled_hdef; assumption.
    - exists rho, M, L. repeat (split; [assumption|]). intros t Ht. apply good_shift with x. apply D. exact Ht. }
  destruct (track_compact order g w f s 0 T ltac:(lra)) as (rho2 & C & Hr2 & HC & HK2).
  { intros x Hx. destruct (Hg x Hx) as [Hd Hx']. apply (track_near order g w f s x Hf Hwf); [exact Hd|exact Hd|]. apply (doubled_continuous g q p x Hx'). }
  set (rho := Rmin rho1 rho2). assert (Hr : 0 < rho) by (apply Rmin_pos; assumption).
  assert (HG : forall t, 0 <= t <= T -> good f n s rho M L t) by (intros t Ht; eapply good_le; [apply HG1; exact Ht|apply Rmin_l|lra|lra]).
  assert (HK : forall t, 0 <= t <= T -> track order g w f s rho C t) by (intros t Ht; eapply track_le; [apply HK2; exact Ht|apply Rmin_r|lra]). clearbody rho. clear HG1 HK2.
  set (X := exp (L * T)). assert (HX : 0 < X) by apply exp_pos. set (K := (1 + T * (M + C)) * X).
  assert (PK : 0 < K) by (unfold K; apply Rmult_lt_0_compat; [|exact HX]; assert (0 <= T * (M + C)) by (apply Rmult_le_pos; lra); lra).
  set (r := Rmin 1 (Rmin (rho / 2) (rho / (4 * K)))).
  assert (Pr : 0 < r) by (unfold r; repeat apply Rmin_pos; try lra; apply Rdiv_lt_0_compat; lra).
  assert (R1 : r <= 1) by apply Rmin_l. assert (R2 : r <= rho / 2) by (unfold r; eapply Rle_trans; [apply Rmin_r|apply Rmin_l]).
  assert (R3 : K * r <= rho / 4). { assert (Q : r <= rho / (4 * K)) by (unfold r; eapply Rle_trans; [apply Rmin_r|apply Rmin_r]). apply Rmult_le_compat_l with (r := K) in Q; [|lra]. replace (K * (rho / (4 * K))) with (rho / 4) in Q by (field; lra). exact Q. }
  clearbody r. exists K, r. split; [lra|]. split; [exact Pr|]. intros u A Hu0 HA h N e0 q0 p0 Hh HN HNT H0 He.
  assert (Puh : 0 <= u / h) by (apply Rmult_le_pos; [exact Hu0|apply Rlt_le, Rinv_0_lt_compat; lra]).
  assert (E0 : 0 <= e0) by (eapply Rle_trans; [apply Rabs_pos|apply (H0 0%nat); lia]).
  assert (Hu : 0 <= u < rho). { split; [exact Hu0|]. apply Rle_lt_trans with (u / h * 1); [|lra]. replace u with (u / h * h) at 1 by (field; lra). apply Rmult_le_compat_l; lra. }
  assert (Hp0 : 0 <= h ^ n) by (apply pow_le; lra).
  assert (Hp : h ^ n <= r). { destruct n as [|m]; [lia|]. cbn [pow]. assert (Q : h ^ m <= 1) by (rewrite <- (pow1 m); apply pow_incr; lra). assert (Q0 : 0 <= h ^ m) by (apply pow_le; lra). nra. }
  assert (BK : (e0 + T * (M * h ^ n + C * (u / h))) * X <= K * (e0 + h ^ n + u / h)).
  { unfold K. rewrite Rmult_assoc, (Rmult_comm X), <- Rmult_assoc. apply Rmult_le_compat_r; [lra|].
    assert (Z1 : 0 <= T * M) by (apply Rmult_le_pos; lra). assert (Z2 : 0 <= T * C) by (apply Rmult_le_pos; lra).
    replace ((1 + T * (M + C)) * (e0 + h ^ n + u / h)) with (e0 + (T * M) * h ^ n + (T * C) * (u / h) + (h ^ n + u / h + (T * M) * (e0 + u / h) + (T * C) * (e0 + h ^ n))) by ring.
    assert (Z3 : 0 <= T * M * (e0 + u / h)) by (apply Rmult_le_pos; lra). assert (Z4 : 0 <= T * C * (e0 + h ^ n)) by (apply Rmult_le_pos; lra). lra. }
  assert (BR : (e0 + T * (M * h ^ n + C * (u / h))) * exp (L * T) < rho).
  { eapply Rle_lt_trans; [exact BK|]. apply Rle_lt_trans with (K * (2 * r)); [apply Rmult_le_compat_l; lra|]. lra. }
  destruct (converge_rounded order g w f n s T rho M L C HT Hr HM HL HC HG HK u A Hu HA h N e0 (doubled q0 p0) ltac:(lra) HNT E0 (doubled_within _ _ _ _ _ H0) BR) as (l & Ll & Sl & Wl).
  assert (Ho := orders_cases _ _ _ _ Hf).
  assert (Tr : trajectoryA A g q0 p0 false N h order w = Ok (map (fun s => (q1 s, p1 s)) l)).
  { unfold trajectoryA. destruct (integrator_ofA A order g w) as [fA|] eqn:EfA; [|destruct Ho as [-> |[-> |[-> | ->]]]; discriminate]. cbn [bindR].
    assert (SE : statesA (fA h) N (mkQ4 q0 p0 q0 p0) = Ok l). { rewrite <- Sl. apply statesA_ext. intros y. unfold stepA. rewrite EfA. reflexivity. }
    rewrite SE. cbn [bindR]. destruct l; [cbn in Ll; lia|reflexivity]. }
  exists (map (fun s => (q1 s, p1 s)) l). split; [exact Tr|]. split; [rewrite map_length; exact Ll|].
  intros k row Hk i Hi. rewrite nth_error_map in Hk. destruct (nth_error l k) as [y|] eqn:Ey; [|discriminate]. injection Hk as <-. cbn [fst snd].
  assert (W := Wl k y Ey). unfold s in W. fold X in W.
  assert (FQ : forall s, flat s i = q4nth (q1 s) i /\ flat s (4 + i) = q4nth (p1 s) i) by (intros x; clear -Hi; revert i Hi; apply q4_cases; split; reflexivity).
  split.
  - assert (Z := W i ltac:(lia)). rewrite !(proj1 (FQ _)) in Z. eapply Rle_trans; [exact Z|exact BK].
  - assert (Z := W (4 + i)%nat ltac:(lia)). rewrite !(proj2 (FQ _)) in Z. eapply Rle_trans; [exact Z|exact BK].
Qed.
