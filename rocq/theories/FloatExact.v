(** The floating-point programs run on exact arithmetic are the exact models of DualModel.v, FantasyModel.v, GeodesicModel.v. *)
From Coq Require Import Reals List ZArith Lra Lia Bool.
From Verif Require Import Base DualModel DualSpec DualProofs GeoUtilsModel FantasyModel FantasyProofs GeodesicModel FloatModel.
Import ListNotations.
Open Scope R_scope.

Lemma quot_exact s o : quotA exact s o = (let* v := fdiv (val s) (val o) in let* d := fdiv (deriv s * val o - val s * deriv o) (val o * val o) in Ok (mkdual v d)).
Proof.
  unfold quotA, exact; cbn [a_div a_mul a_sub a_pow]. unfold fdiv at 1 3. destruct (Req_EM_T (val o) 0) as [E|E]; cbn [bindR]; [reflexivity|].
  rewrite fpowZ_ok by (right; lia). cbn [bindR]. replace (powerRZ (val o) 2) with (val o * val o) by (change (powerRZ (val o) 2) with (val o ^ 2); ring). reflexivity.
Qed.
Lemma truediv_exact s o : d_truedivA exact s o = d_truediv s o.
Proof.
  destruct o as [x|o]; cbn [d_truedivA d_truediv]; [reflexivity|]. rewrite quot_exact. reflexivity.
Qed.
Lemma div_exact u v : py_divA exact u v = py_div u v.
Proof.
  destruct u as [x|s], v as [y|o]; cbn [py_divA py_div]; try reflexivity; rewrite ?truediv_exact; try reflexivity.
  unfold d_rtruedivA. rewrite truediv_exact. reflexivity.
Qed.
Lemma powZ_exact u n : py_powZA exact u n = py_powZ u n.
Proof. destruct u as [x|s]; cbn [py_powZA py_powZ]; [reflexivity|]. unfold d_powZA, d_powZ, exact; cbn [a_pow a_num a_mul bindR]. reflexivity. Qed.
Lemma powR_exact u p : py_powRA exact u p = py_powR u p.
Proof. destruct u as [x|s]; cbn [py_powRA py_powR]; reflexivity. Qed.
Lemma tan_exact u : py_tanA exact u = py_tan u.
Proof. destruct u as [x|s]; cbn [py_tanA py_tan]; [reflexivity|]. unfold d_tanA, d_tan. cbn [d_sinA d_cosA exact a_sin a_cos a_mul bindR]. rewrite truediv_exact. reflexivity. Qed.
Lemma run_exactA env e : runA exact env e = runP env e.
Proof.
  induction e; cbn [runA runP]; rewrite ?IHe, ?IHe1, ?IHe2; try reflexivity.
  all: first [destruct (runP env e1) as [u|]; cbn [bindR]; [|reflexivity]; destruct (runP env e2) as [v|]; cbn [bindR]; [|reflexivity]
    |destruct (runP env e) as [u|]; cbn [bindR]; [|reflexivity]].
  all: first [apply div_exact|apply powZ_exact|apply powR_exact|apply tan_exact|destruct u, v; reflexivity|destruct u; reflexivity].
Qed.
Lemma q4map_ext {B D} (f g : B -> D) v : (forall b, f b = g b) -> q4map f v = q4map g v.
Proof. intros H. unfold q4map. rewrite !H. reflexivity. Qed.
Lemma run_metric_exact g env : run_metricA exact g env = run_metric g env.
Proof. unfold run_metricA, run_metric. f_equal. apply q4map_ext. intros row. f_equal. apply q4map_ext. intros e. apply run_exactA. Qed.
Lemma metric_at_exact g q : metric_atA exact g q = metric_at g q.
Proof. unfold metric_atA, metric_at. rewrite run_metric_exact. reflexivity. Qed.
Lemma jacobian_exact g q k : (k < 4)%nat -> jacobian_gA exact g q k = jacobian_g g q (Z.of_nat k).
Proof.
  intros Hk. unfold jacobian_gA, jacobian_g, jac_upper.
  assert (E : forall i j, (i < 4)%nat -> (j < 4)%nat -> diff_gA exact g q i j k = diff_g g q [i; j] (Z.of_nat k)).
  { intros i j Hi Hj. unfold diff_gA, diff_g. rewrite run_metric_exact, Nat2Z.id.
    assert (W : (negb ((Z.of_nat k =? 0) || (Z.of_nat k =? 1) || (Z.of_nat k =? 2) || (Z.of_nat k =? 3)))%Z%bool = false)
      by (destruct k as [|[|[|[|k]]]]; [reflexivity..|lia]).
    rewrite W. apply Nat.ltb_lt in Hi. apply Nat.ltb_lt in Hj. rewrite Hi, Hj. reflexivity. }
  assert (E2 : q4tab (fun i => q4seq (q4tab (fun j => if Nat.leb i j then diff_gA exact g q i j k else Ok 0)))
             = q4tab (fun i => q4seq (q4tab (fun j => if Nat.leb i j then diff_g g q [i; j] (Z.of_nat k) else Ok 0)))).
  { unfold q4tab. rewrite !E by lia. reflexivity. }
  rewrite E2. destruct (q4seq _) as [J|]; [|reflexivity]. cbn [bindR]. reflexivity.
Qed.
Lemma ham_grad_exact g q p : ham_gradA exact g q p = ham_grad (metricfun_of g) q p.
Proof.
  unfold ham_gradA, ham_grad. f_equal. unfold q4tab.
  assert (E : forall k, (k < 4)%nat -> (let* x := part_ham_flowA exact g q p k in a_mul exact (/ 2) x) = mapR (fun x => / 2 * x) (part_ham_flow (metricfun_of g) q p k)).
  { intros k Hk. unfold part_ham_flowA, part_ham_flow. rewrite jacobian_exact by exact Hk. cbn [metricfun_of gjac]. destruct (jacobian_g g q (Z.of_nat k)) as [J|]; reflexivity. }
  rewrite !E by lia. reflexivity.
Qed.
Lemma apply_A_exact g d s : apply_AA exact g d s = apply_A (metricfun_of g) d s.
Proof.
  unfold apply_AA, apply_A, flow_A. rewrite ham_grad_exact, metric_at_exact. cbn [metricfun_of gval]. destruct (ham_grad _ _ _); cbn [bindR]; [|reflexivity].
  cbn [vscalA vsubA q4map q4map2 q4seq exact a_mul a_sub bindR c0 c1 c2 c3]. destruct (metric_at g (q1 s)); reflexivity.
Qed.
Lemma apply_B_exact g d s : apply_BA exact g d s = apply_B (metricfun_of g) d s.
Proof.
  unfold apply_BA, apply_B, flow_B. rewrite ham_grad_exact, metric_at_exact. cbn [metricfun_of gval]. destruct (ham_grad _ _ _); cbn [bindR]; [|reflexivity].
  cbn [vscalA vsubA q4map q4map2 q4seq exact a_mul a_sub bindR c0 c1 c2 c3]. destruct (metric_at g (q2 s)); reflexivity.
Qed.
Lemma flow_mixed_exact s d w : flow_mixedA exact s d w = Ok (flow_mixed s d w).
Proof. reflexivity. Qed.
Lemma ord_2_exact g w d s : ord_2A exact g w d s = ord_2 (metricfun_of g) w d s.
Proof.
  unfold ord_2A, ord_2. cbn [exact a_mul bindR]. fold exact. rewrite apply_A_exact. destruct (apply_A _ _ _) as [x|]; cbn [bindR]; [|reflexivity].
  rewrite apply_B_exact. destruct (apply_B _ _ _) as [y|]; cbn [bindR]; [|reflexivity]. rewrite flow_mixed_exact. cbn [bindR].
  rewrite apply_B_exact. destruct (apply_B _ _ _) as [z|]; cbn [bindR]; [|reflexivity]. apply apply_A_exact.
Qed.
Lemma two_lt_2 n : Rpower 2 (1 / (2 * n + 1)) < 2 \/ n <= 0. 
Proof.
  destruct (Rle_dec n 0) as [L|L]; [right; exact L|left]. apply Rlt_le_trans with (Rpower 2 1); [|rewrite Rpower_1; lra]. apply Rpower_lt; [lra|].
  apply Rmult_lt_reg_r with (2 * n + 1); [lra|]. unfold Rdiv. rewrite Rmult_assoc, Rinv_l by lra. lra.
Qed.
Lemma Z01_exact order : (2 < order)%nat -> Z01A exact order = Ok (Z01 order).
Proof.
  intros Ho. assert (P : 2 < INR order) by (apply (lt_INR 2); exact Ho). unfold Z01A, Z01, exact. cbn [a_div a_powr a_sub]. set (n := (INR order - 2) / 2).
  assert (Hn : 0 < n) by (unfold n; lra). rewrite fdiv_ok by lra. cbn [bindR]. rewrite fpowR_ok by lra. cbn [bindR].
  destruct (two_lt_2 n) as [L|L]; [|lra]. rewrite !fdiv_ok by lra. cbn [bindR]. reflexivity.
Qed.
Lemma triple_exact order fA f : (2 < order)%nat -> (forall d s, fA d s = f d s) -> forall d s, tripleA exact order fA d s = triple order f d s.
Proof.
  intros Ho E d s. unfold tripleA, triple. rewrite Z01_exact by exact Ho. cbn [bindR exact a_mul]. rewrite E. destruct (f _ s) as [x|]; cbn [bindR]; [|reflexivity].
  rewrite E. destruct (f _ x) as [y|]; cbn [bindR]; [|reflexivity]. apply E.
Qed.
Lemma integrator_exact order g w : match integrator_ofA exact order g w, integrator_of order (metricfun_of g) w with
  | Ok fA, Ok f => forall d s, fA d s = f d s | Err e, Err e' => e = e' | _, _ => False end.
Proof.
  destruct order as [|[|[|[|[|[|[|[|[|order]]]]]]]]]; cbn [integrator_ofA integrator_of]; try reflexivity; intros d s.
  - apply ord_2_exact.
  - apply triple_exact; [lia|]. apply ord_2_exact.
  - apply triple_exact; [lia|]. apply triple_exact; [lia|]. apply ord_2_exact.
  - apply triple_exact; [lia|]. apply triple_exact; [lia|]. apply triple_exact; [lia|]. apply ord_2_exact.
Qed.
(** the rows of calculate_trajectory *)
Lemma run_steps_states n : forall It f, integrator_of (i_order It) (i_metric It) (i_omega It) = Ok f ->
  match run_steps n It, statesA (f (i_delta It)) n (i_res It) with Ok It2, Ok l => i_results It2 = i_results It ++ l | Err e, Err e' => e = e' | _, _ => False end.
Proof.
  induction n as [|n IH]; intros It f Hf; cbn [run_steps statesA]; [rewrite app_nil_r; reflexivity|].
  unfold step. rewrite Hf. destruct (f (i_delta It) (i_res It)) as [arr|e] eqn:E; cbn [bindR]; [|reflexivity]. rewrite andb_false_r.
  set (It2 := mkinteg _ _ _ _ _ _ _ _ _ _ _). assert (H := IH It2 f Hf). cbn [It2 i_delta i_res i_results] in H. fold It2 in H.
  destruct (run_steps n It2) as [It3|e], (statesA (f (i_delta It)) n arr) as [l|e']; cbn [bindR]; try exact H. rewrite H, <- app_assoc. reflexivity.
Qed.
Lemma seqR_exact {B D} (f : B -> D) l : seqR (fun b => Ok (f b)) l = Ok (map f l).
Proof. induction l as [|b l IH]; cbn [seqR map bindR]; [reflexivity|]. rewrite IH. reflexivity. Qed.
Lemma statesA_ext f f' n : (forall s, f s = f' s) -> forall s, statesA f n s = statesA f' n s.
Proof. intros E. induction n as [|n IH]; intros s; cbn [statesA]; [reflexivity|]. rewrite E. destruct (f' s) as [x|]; cbn [bindR]; [|reflexivity]. rewrite IH. reflexivity. Qed.
Lemma trajectory_exact g q0 p0 tl cart kw :
  trajectoryA exact g q0 p0 cart (k_steps kw) (k_delta kw) (k_order kw) (k_omega kw) = mapR snd (calculate_trajectory g q0 p0 tl cart kw).
Proof.
  unfold trajectoryA, calculate_trajectory, mk_integrator. assert (H := integrator_exact (k_order kw) g (k_omega kw)).
  destruct (integrator_ofA exact (k_order kw) g (k_omega kw)) as [fA|e], (integrator_of (k_order kw) (metricfun_of g) (k_omega kw)) as [f|e'] eqn:Ef; cbn [bindR mapR]; try contradiction; [|subst; reflexivity].
  set (It := mkinteg _ _ _ _ _ _ _ _ _ _ _). assert (Q := run_steps_states (k_steps kw) It f Ef). cbn [It i_delta i_res i_results app] in Q. fold It in Q.
  rewrite (statesA_ext _ (f (k_delta kw)) _ (H (k_delta kw))).
  destruct (run_steps (k_steps kw) It) as [It2|e], (statesA (f (k_delta kw)) (k_steps kw) (mkQ4 q0 p0 q0 p0)) as [l|e']; cbn [bindR mapR]; try contradiction; [|subst; reflexivity].
  rewrite Q. destruct l as [|y l]; [reflexivity|]. destruct cart; [|reflexivity].
  set (rows := map _ (y :: l)). etransitivity; [|cbn [mapR snd]; reflexivity]. rewrite <- seqR_exact. reflexivity.
Qed.
Lemma P4_exact g q u1 u2 u3 tl v : P4A exact g q u1 u2 u3 tl = Ok v <-> P4 g q u1 u2 u3 tl = Ok v.
Proof.
  unfold P4A, P4, P_of_guu. rewrite metric_at_exact. destruct (metric_at g q) as [guu|]; cbn [bindR]; [|tauto].
  cbn [exact a_mul a_add a_sub a_pow a_sqrt a_div bindR]. rewrite fpowZ_ok by (right; lia). cbn [bindR].
  match goal with |- context [powerRZ ?b 2] => replace (powerRZ b 2) with (b * b) by (change (powerRZ b 2) with (b ^ 2); ring) end.
  destruct (np_sqrt _) as [r|]; cbn [bindR]; [|tauto]. unfold fdiv, np_div. destruct (Req_EM_T _ 0); cbn [bindR]; [|tauto]. split; discriminate.
Qed.
