From Coq Require Import Reals List ZArith Lra Lia Bool.
From Coquelicot Require Import Coquelicot.
From Verif Require Import Base Calc DualModel DualSpec DualProofs GeoUtilsModel GeoUtilsSpec GeoUtilsProofs FantasyModel.
Import ListNotations.
Open Scope R_scope.

Ltac vec := unfold vadd, vsub, vscal, q4map2, q4map; apply Q4_eq; cbn [c0 c1 c2 c3].

(** ** C08: mixed flow *)
Lemma trig1 x : sin x * sin x + cos x * cos x = 1.
Proof. assert (H := sin2_cos2 x). unfold Rsqr in H. exact H. Qed.

Lemma state_eta (s : state) : s = mkQ4 (q1 s) (p1 s) (q2 s) (p2 s).
Proof. destruct s; reflexivity. Qed.

Ltac dstate s :=
  let x := fresh "x" in let x0 := fresh "x" in let x1 := fresh "x" in let x2 := fresh "x" in
  let y := fresh "y" in let y0 := fresh "y" in let y1 := fresh "y" in let y2 := fresh "y" in
  let z := fresh "z" in let z0 := fresh "z" in let z1 := fresh "z" in let z2 := fresh "z" in
  let u := fresh "u" in let u0 := fresh "u" in let u1 := fresh "u" in let u2 := fresh "u" in
  destruct s as [[x x0 x1 x2] [y y0 y1 y2] [z z0 z1 z2] [u u0 u1 u2]].

Lemma mixed_sum s d w :
  vadd (q1 (flow_mixed s d w)) (q2 (flow_mixed s d w)) = vadd (q1 s) (q2 s)
  /\ vadd (p1 (flow_mixed s d w)) (p2 (flow_mixed s d w)) = vadd (p1 s) (p2 s).
Proof.
  unfold flow_mixed, q1, q2, p1, p2; cbn [c0 c1 c2 c3]. split; vec; field.
Qed.

(** the differences rotate by the angle 2*omega*delta *)
Lemma mixed_diff s d w :
  let s' := flow_mixed s d w in
  vsub (q1 s') (q2 s') = vadd (vscal (cos (2 * w * d)) (vsub (q1 s) (q2 s))) (vscal (sin (2 * w * d)) (vsub (p1 s) (p2 s)))
  /\ vsub (p1 s') (p2 s') = vsub (vscal (cos (2 * w * d)) (vsub (p1 s) (p2 s))) (vscal (sin (2 * w * d)) (vsub (q1 s) (q2 s))).
Proof.
  unfold flow_mixed, q1, q2, p1, p2; cbn [c0 c1 c2 c3]. split; vec; field.
Qed.

Definition half_sum_dif (s : state) : state :=
  mkQ4 (vadd (q1 s) (q2 s)) (vadd (p1 s) (p2 s)) (vsub (q1 s) (q2 s)) (vsub (p1 s) (p2 s)).
Lemma sum_dif_inj s s' : half_sum_dif s = half_sum_dif s' -> s = s'.
Proof.
  dstate s; dstate s'. unfold half_sum_dif, q1, q2, p1, p2, vadd, vsub, q4map2; cbn [c0 c1 c2 c3].
  intros H; injection H; intros. f_equal; f_equal; lra.
Qed.

Definition norm2 (v : V4) : R := dot v v.
Lemma mixed_norm s d w : let s' := flow_mixed s d w in
  norm2 (vsub (q1 s') (q2 s')) + norm2 (vsub (p1 s') (p2 s'))
  = norm2 (vsub (q1 s) (q2 s)) + norm2 (vsub (p1 s) (p2 s)).
Proof.
  intros s'. destruct (mixed_diff s d w) as [H1 H2]. fold s' in H1, H2. rewrite H1, H2.
  assert (T := trig1 (2 * w * d)).
  set (dq := vsub (q1 s) (q2 s)). set (dp := vsub (p1 s) (p2 s)).
  set (si := sin (2 * w * d)) in *. set (co := cos (2 * w * d)) in *.
  transitivity ((si * si + co * co) * (norm2 dq + norm2 dp)); [|rewrite T; ring].
  unfold norm2, dot, vadd, vsub, vscal, q4map2, q4map; cbn [c0 c1 c2 c3]. ring.
Qed.

Lemma mixed_add s d e w : flow_mixed (flow_mixed s d w) e w = flow_mixed s (d + e) w.
Proof.
  apply sum_dif_inj. unfold half_sum_dif.
  destruct (mixed_sum (flow_mixed s d w) e w) as [A1 A2]. destruct (mixed_sum s d w) as [B1 B2].
  destruct (mixed_sum s (d + e) w) as [C1 C2].
  rewrite A1, A2, B1, B2, C1, C2.
  destruct (mixed_diff (flow_mixed s d w) e w) as [D1 D2]. destruct (mixed_diff s d w) as [E1 E2].
  destruct (mixed_diff s (d + e) w) as [F1 F2].
  rewrite D1, D2, E1, E2, F1, F2.
  replace (2 * w * (d + e)) with (2 * w * d + 2 * w * e) by ring. rewrite cos_plus, sin_plus.
  f_equal; vec; ring.
Qed.
Lemma mixed_zero s w : flow_mixed s 0 w = s.
Proof.
  apply sum_dif_inj. unfold half_sum_dif.
  destruct (mixed_sum s 0 w) as [A1 A2]. destruct (mixed_diff s 0 w) as [D1 D2].
  rewrite A1, A2, D1, D2. rewrite Rmult_0_r, cos_0, sin_0. f_equal; vec; ring.
Qed.
Lemma mixed_inv s d w : flow_mixed (flow_mixed s d w) (- d) w = s.
Proof. rewrite mixed_add, Rplus_opp_r. apply mixed_zero. Qed.

(** the mixed flow is the exact flow of omega/2 (|dq|^2+|dp|^2): Hamilton's equations *)
Lemma mixed_hamilton s w (d : R) (i : nat) : (i < 4)%nat ->
  let u := fun t => flow_mixed s t w in
  is_derive (fun t => q4nth (q1 (u t)) i) d (w * (q4nth (p1 (u d)) i - q4nth (p2 (u d)) i))
  /\ is_derive (fun t => q4nth (p1 (u t)) i) d (- (w * (q4nth (q1 (u d)) i - q4nth (q2 (u d)) i)))
  /\ is_derive (fun t => q4nth (q2 (u t)) i) d (- (w * (q4nth (p1 (u d)) i - q4nth (p2 (u d)) i)))
  /\ is_derive (fun t => q4nth (p2 (u t)) i) d (w * (q4nth (q1 (u d)) i - q4nth (q2 (u d)) i)).
Proof.
  intros Hi u. revert i Hi. unfold u, flow_mixed, q1, q2, p1, p2, vadd, vsub, vscal, q4map2, q4map.
  apply q4_cases; cbn [q4nth c0 c1 c2 c3];
  (split; [|split; [|split]]); (auto_derive; [exact Logic.I|field]).
Qed.

(** ** C10: reversibility *)
Lemma vsub_vadd_cancel (v w : V4) d : vsub (vsub v (vscal d w)) (vscal (- d) w) = v.
Proof. destruct v, w; vec; ring. Qed.
Lemma vadd_cancel (v w : V4) d : vadd (vadd v (vscal d w)) (vscal (- d) w) = v.
Proof. destruct v, w; vec; ring. Qed.

Lemma apply_A_rev G d s s' : apply_A G d s = Ok s' -> apply_A G (- d) s' = Ok s.
Proof.
  unfold apply_A, flow_A. intros H.
  apply bindR_Ok in H. destruct H as (qp & H & E). apply Ok_inj in E. subst s'.
  apply bindR_Ok in H. destruct H as (dp & Hd & H).
  apply bindR_Ok in H. destruct H as (g & Hg & H). apply Ok_inj in H. subst qp.
  unfold q1, p1, q2, p2 in *; cbn [c0 c1 c2 c3 fst snd]. rewrite Hd. cbn [bindR]. rewrite Hg. cbn [bindR fst snd].
  rewrite vsub_vadd_cancel, vadd_cancel. destruct s; reflexivity.
Qed.
Lemma apply_B_rev G d s s' : apply_B G d s = Ok s' -> apply_B G (- d) s' = Ok s.
Proof.
  unfold apply_B, flow_B. intros H.
  apply bindR_Ok in H. destruct H as (qp & H & E). apply Ok_inj in E. subst s'.
  apply bindR_Ok in H. destruct H as (dp & Hd & H).
  apply bindR_Ok in H. destruct H as (g & Hg & H). apply Ok_inj in H. subst qp.
  unfold q1, p1, q2, p2 in *; cbn [c0 c1 c2 c3 fst snd]. rewrite Hd. cbn [bindR]. rewrite Hg. cbn [bindR fst snd].
  rewrite vsub_vadd_cancel, vadd_cancel. destruct s; reflexivity.
Qed.

Definition reversible (f : R -> state -> Res state) : Prop :=
  forall d s s', f d s = Ok s' -> f (- d) s' = Ok s.

Lemma ord_2_rev G w : reversible (ord_2 G w).
Proof.
  intros d s s' H. unfold ord_2 in *.
  apply bindR_Ok in H. destruct H as (a & Ha & H). apply bindR_Ok in H. destruct H as (b & Hb & H).
  apply bindR_Ok in H. destruct H as (c & Hc & H).
  replace (/ 2 * - d) with (- (/ 2 * d)) by ring.
  rewrite (apply_A_rev _ _ _ _ H). cbn [bindR].
  rewrite (apply_B_rev _ _ _ _ Hc). cbn [bindR]. rewrite mixed_inv.
  rewrite (apply_B_rev _ _ _ _ Hb). cbn [bindR]. exact (apply_A_rev _ _ _ _ Ha).
Qed.
Lemma triple_rev order f : reversible f -> reversible (triple order f).
Proof.
  intros Hf d s s' H. unfold triple in *.
  apply bindR_Ok in H. destruct H as (a & Ha & H). apply bindR_Ok in H. destruct H as (b & Hb & H).
  replace (- d * snd (Z01 order)) with (- (d * snd (Z01 order))) by ring.
  replace (- d * fst (Z01 order)) with (- (d * fst (Z01 order))) by ring.
  rewrite (Hf _ _ _ H). cbn [bindR]. rewrite (Hf _ _ _ Hb). cbn [bindR]. exact (Hf _ _ _ Ha).
Qed.
Lemma integrator_rev order G w f : integrator_of order G w = Ok f -> reversible f.
Proof.
  intros H.
  destruct order as [|[|[|[|[|[|[|[|[|?]]]]]]]]]; simpl in H; try discriminate; apply Ok_inj in H; subst f;
    [apply ord_2_rev| | |]; repeat apply triple_rev; apply ord_2_rev.
Qed.

(** ** C12 / C13: Yoshida weights *)
Lemma Z01_x order : (4 <= order)%nat ->
  exists x, Z01 order = (- x / (2 - x), 1 / (2 - x)) /\ 1 < x < 2 /\ x ^ (order - 1) = 2
    /\ x = Rpower 2 (/ INR (order - 1)).
Proof.
  intros Ho. exists (Rpower 2 (/ INR (order - 1))).
  assert (Hn : INR (order - 1) = INR order - 1) by (rewrite minus_INR by lia; reflexivity).
  assert (Hp : 3 <= INR (order - 1)).
  { replace 3 with (INR 3) by (simpl; ring). apply le_INR. lia. }
  split; [|split; [|split; [|reflexivity]]].
  - unfold Z01. replace (1 / (2 * ((INR order - 2) / 2) + 1)) with (/ INR (order - 1)); [reflexivity|].
    rewrite Hn. field. lra.
  - split.
    + rewrite <- (Rpower_O 2) by lra. apply Rpower_lt; [lra|]. apply Rinv_0_lt_compat; lra.
    + rewrite <- (Rpower_1 2) at 2 by lra. apply Rpower_lt; [lra|].
      rewrite <- Rinv_1. apply Rinv_lt_contravar; lra.
  - rewrite <- Rpower_pow by (unfold Rpower; apply exp_pos).
    rewrite Rpower_mult. rewrite Rinv_l by lra. apply Rpower_1; lra.
Qed.

(** substep weights, read off the execution: order-2 steps performed by one step of each order *)
Fixpoint run_substeps (G : metricfun) (w : R) (ws : list R) (delta : R) (s : state) : Res state :=
  match ws with
  | [] => Ok s
  | z :: ws => let* s1 := ord_2 G w (delta * z) s in run_substeps G w ws delta s1
  end.
Definition triple_weights (order : nat) (ws : list R) : list R :=
  map (Rmult (snd (Z01 order))) ws ++ map (Rmult (fst (Z01 order))) ws ++ map (Rmult (snd (Z01 order))) ws.
Definition weights (order : nat) : list R :=
  match order with
  | 2%nat => [1]
  | 4%nat => triple_weights 4 [1]
  | 6%nat => triple_weights 6 (triple_weights 6 [1])
  | 8%nat => triple_weights 8 (triple_weights 8 (triple_weights 8 [1]))
  | _ => []
  end.

Lemma run_substeps_app G w ws1 ws2 d s :
  run_substeps G w (ws1 ++ ws2) d s = bindR (run_substeps G w ws1 d s) (run_substeps G w ws2 d).
Proof.
  revert s; induction ws1 as [|z ws IH]; intros s; simpl; [reflexivity|].
  destruct (ord_2 G w (d * z) s); simpl; [apply IH|reflexivity].
Qed.
Lemma run_substeps_scale G w ws k d s :
  run_substeps G w (map (Rmult k) ws) d s = run_substeps G w ws (d * k) s.
Proof.
  revert s; induction ws as [|z ws IH]; intros s; simpl; [reflexivity|].
  rewrite <- Rmult_assoc. destruct (ord_2 G w (d * k * z) s); simpl; auto.
Qed.
Lemma triple_substeps G w order f ws :
  (forall d s, f d s = run_substeps G w ws d s) ->
  forall d s, triple order f d s = run_substeps G w (triple_weights order ws) d s.
Proof.
  intros H d s. unfold triple, triple_weights. destruct (Z01 order) as [z0 z1]. cbn [fst snd].
  rewrite run_substeps_app, run_substeps_scale, H.
  destruct (run_substeps G w ws (d * z1) s) as [s1|]; cbn [bindR]; [|reflexivity].
  rewrite run_substeps_app, run_substeps_scale, H.
  destruct (run_substeps G w ws (d * z0) s1) as [s2|]; cbn [bindR]; [|reflexivity].
  rewrite run_substeps_scale, H. reflexivity.
Qed.
Lemma ord2_substeps G w d s : ord_2 G w d s = run_substeps G w [1] d s.
Proof. simpl. rewrite Rmult_1_r. destruct (ord_2 G w d s); reflexivity. Qed.

Lemma order_is_weights order G w f : integrator_of order G w = Ok f ->
  forall d s, f d s = run_substeps G w (weights order) d s.
Proof.
  intros H.
  destruct order as [|[|[|[|[|[|[|[|[|?]]]]]]]]]; simpl in H; try discriminate; apply Ok_inj in H; subst f.
  - apply ord2_substeps.
  - apply triple_substeps, ord2_substeps.
  - do 2 apply triple_substeps. apply ord2_substeps.
  - do 3 apply triple_substeps. apply ord2_substeps.
Qed.

Definition powsum (k : nat) (ws : list R) : R := fold_right (fun z a => z ^ k + a) 0 ws.
Lemma powsum_app k a b : powsum k (a ++ b) = powsum k a + powsum k b.
Proof. induction a; simpl; [ring|]. rewrite IHa. ring. Qed.
Lemma powsum_scale k z ws : powsum k (map (Rmult z) ws) = z ^ k * powsum k ws.
Proof. induction ws; simpl; [ring|]. rewrite IHws, Rpow_mult_distr. ring. Qed.
Lemma powsum_triple k order ws :
  powsum k (triple_weights order ws) = (2 * snd (Z01 order) ^ k + fst (Z01 order) ^ k) * powsum k ws.
Proof. unfold triple_weights. rewrite !powsum_app, !powsum_scale. ring. Qed.

Lemma jump_sum order : (4 <= order)%nat -> 2 * snd (Z01 order) ^ 1 + fst (Z01 order) ^ 1 = 1.
Proof.
  intros Ho. destruct (Z01_x order Ho) as (x & -> & Hx & _). simpl. field. lra.
Qed.
Lemma jump_odd order k : (4 <= order)%nat -> Nat.Odd k ->
  2 * snd (Z01 order) ^ k + fst (Z01 order) ^ k = (2 - Rpower 2 (/ INR (order - 1)) ^ k) / (2 - Rpower 2 (/ INR (order - 1))) ^ k.
Proof.
  intros Ho [m ->]. destruct (Z01_x order Ho) as (x & -> & Hx & _ & <-). cbn [fst snd].
  unfold Rdiv. rewrite !Rpow_mult_distr, pow1.
  replace (- x) with (-1 * x) by ring. rewrite Rpow_mult_distr.
  replace ((-1) ^ (2 * m + 1)) with (-1).
  2:{ rewrite pow_add, pow_mult. replace ((-1) ^ 2) with 1 by ring. rewrite pow1. ring. }
  rewrite <- Rinv_pow by lra. ring.
Qed.
Lemma jump_cancel order : (4 <= order)%nat -> Nat.Even order ->
  2 * snd (Z01 order) ^ (order - 1) + fst (Z01 order) ^ (order - 1) = 0.
Proof.
  intros Ho [m Hm]. rewrite jump_odd by (try assumption; exists (m - 1)%nat; lia).
  destruct (Z01_x order Ho) as (x & _ & _ & E & <-). rewrite E. unfold Rdiv. rewrite Rminus_diag_eq by reflexivity. ring.
Qed.

Lemma weights_sum order : In order [2;4;6;8]%nat -> powsum 1 (weights order) = 1.
Proof.
  intros H. simpl in H. decompose [or] H; try tauto; subst; unfold weights; rewrite ?powsum_triple, ?jump_sum by lia;
    simpl; ring.
Qed.
Lemma weights_4_cubic : powsum 3 (weights 4) = 0.
Proof.
  unfold weights. rewrite powsum_triple. change 3%nat with (4 - 1)%nat at 1 2.
  rewrite jump_cancel; [ring|lia|exists 2%nat; lia].
Qed.
Lemma jump_cubic_nz order : (6 <= order)%nat -> 2 * snd (Z01 order) ^ 3 + fst (Z01 order) ^ 3 <> 0.
Proof.
  intros Ho. rewrite jump_odd by (lia || (exists 1%nat; reflexivity)).
  destruct (Z01_x order ltac:(lia)) as (x & _ & [Hx1 Hx2] & E & <-).
  assert (H3 : x ^ 3 < 2).
  { rewrite <- E. apply Rlt_pow; [lra|lia]. }
  apply Rmult_integral_contrapositive. split; [lra|].
  apply Rinv_neq_0_compat, pow_nonzero. lra.
Qed.
Lemma weights_68_cubic order : order = 6%nat \/ order = 8%nat -> powsum 3 (weights order) <> 0.
Proof.
  intros [->| ->]; unfold weights; rewrite !powsum_triple; repeat apply Rmult_integral_contrapositive_currified;
    try apply jump_cubic_nz; try lia; simpl; lra.
Qed.
(** ... whereas the documented nesting (order-k jump coefficients at level k) does cancel *)
Lemma correct_nesting_cubic :
  powsum 3 (triple_weights 6 (triple_weights 4 [1])) = 0
  /\ powsum 5 (triple_weights 6 (triple_weights 4 [1])) = 0
  /\ powsum 3 (triple_weights 8 (triple_weights 6 (triple_weights 4 [1]))) = 0
  /\ powsum 5 (triple_weights 8 (triple_weights 6 (triple_weights 4 [1]))) = 0
  /\ powsum 7 (triple_weights 8 (triple_weights 6 (triple_weights 4 [1]))) = 0.
Proof.
  assert (H4 : 2 * snd (Z01 4) ^ 3 + fst (Z01 4) ^ 3 = 0) by (apply (jump_cancel 4); [lia|exists 2%nat; lia]).
  assert (H6 : 2 * snd (Z01 6) ^ 5 + fst (Z01 6) ^ 5 = 0) by (apply (jump_cancel 6); [lia|exists 3%nat; lia]).
  assert (H8 : 2 * snd (Z01 8) ^ 7 + fst (Z01 8) ^ 7 = 0) by (apply (jump_cancel 8); [lia|exists 4%nat; lia]).
  rewrite !powsum_triple, H4, H6, H8. repeat split; ring.
Qed.
