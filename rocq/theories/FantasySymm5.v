(** A metric with all the symmetries on which every run succeeds (non-vacuity of the symmetry theorems). *)
From Coq Require Import String Reals List ZArith Lra Lia Bool.
From Verif Require Import Base DualModel DualSpec Calc GeoUtilsModel GeoUtilsProofs FantasyModel FantasyProofs FantasyProofs2 FantasyProofs3 GeodesicModel FantasySymm FantasySymm2 FantasySymm3 FantasySymm4.
Import ListNotations.
Open Scope R_scope.

Definition total_fun (G : metricfun) : Prop := (forall q, exists m, gval G q = Ok m) /\ (forall q k, (k < 4)%nat -> exists J, gjac G q k = Ok J).
Lemma ham_grad_total G q p : total_fun G -> exists v, ham_grad G q p = Ok v.
Proof.
  intros [_ H]. unfold ham_grad, part_ham_flow, q4tab, q4seq. cbn [c0 c1 c2 c3].
  destruct (H q 0%nat ltac:(lia)) as [J0 ->], (H q 1%nat ltac:(lia)) as [J1 ->], (H q 2%nat ltac:(lia)) as [J2 ->], (H q 3%nat ltac:(lia)) as [J3 ->]. cbn [bindR mapR]. eauto.
Qed.
Lemma apply_A_total G d s : total_fun G -> exists s', apply_A G d s = Ok s'.
Proof.
  intros H. unfold apply_A, flow_A. destruct (ham_grad_total G (q1 s) (p2 s) H) as [h ->]. destruct (proj1 H (q1 s)) as [m E]. cbn [bindR]. rewrite E. cbn [bindR]. eauto.
Qed.
Lemma apply_B_total G d s : total_fun G -> exists s', apply_B G d s = Ok s'.
Proof.
  intros H. unfold apply_B, flow_B. destruct (ham_grad_total G (q2 s) (p1 s) H) as [h ->]. destruct (proj1 H (q2 s)) as [m E]. cbn [bindR]. rewrite E. cbn [bindR]. eauto.
Qed.
Lemma ord_2_total G w d s : total_fun G -> exists s', ord_2 G w d s = Ok s'.
Proof.
  intros H. unfold ord_2. destruct (apply_A_total G (/ 2 * d) s H) as [s1 ->]. cbn [bindR]. destruct (apply_B_total G (/ 2 * d) s1 H) as [s2 ->]. cbn [bindR].
  destruct (apply_B_total G (/ 2 * d) (flow_mixed s2 d w) H) as [s3 ->]. cbn [bindR]. apply apply_A_total. exact H.
Qed.
Lemma run_total n : forall It, total_fun (i_metric It) -> i_order It = 2%nat -> exists It2, run_steps n It = Ok It2 /\ length (i_results It2) = (n + length (i_results It))%nat.
Proof.
  induction n as [|n IH]; intros It H O; [exists It; split; reflexivity|]. cbn [run_steps]. unfold step. rewrite O. cbn [integrator_of].
  destruct (ord_2_total (i_metric It) (i_omega It) (i_delta It) (i_res It) H) as [s ->]. rewrite andb_false_r.
  match goal with |- context [run_steps n ?I] => destruct (IH I H) as [I2 [E L]]; [reflexivity|] end. exists I2. split; [exact E|]. rewrite L. cbn [i_results]. rewrite app_length. cbn. lia.
Qed.
Lemma trajectory_total g q0 p0 tl cart kw : total_fun (metricfun_of g) -> k_order kw = 2%nat -> (0 < k_steps kw)%nat -> exists t, calculate_trajectory g q0 p0 tl cart kw = Ok t.
Proof.
  intros H O L. unfold calculate_trajectory, mk_integrator. rewrite O. cbn [integrator_of bindR].
  match goal with |- context [run_steps _ ?I] => destruct (run_total (k_steps kw) I H) as [I2 [-> E]]; [first [exact O|reflexivity]|] end. cbn [bindR].
  destruct (i_results I2) as [|s l]; [cbn in E; lia|]. destruct cart; eauto.
Qed.
(** g^ = diag(-1, 1, r^2, cos^2 theta) *)
Definition demo : metricP := mkQ4 (mkQ4 (EConst (-1)) zeroE zeroE zeroE) (mkQ4 zeroE (EConst 1) zeroE zeroE)
  (mkQ4 zeroE zeroE (EPow (EVar 1) 2) zeroE) (mkQ4 zeroE zeroE zeroE (EPow (ECos (EVar 2)) 2)).
Lemma demo_total : total_fun (metricfun_of demo).
Proof.
  split.
  - intros q. cbn [metricfun_of gval]. unfold metric_at, run_metric, demo, zeroE, Ec, q4map, q4seq. cbn [c0 c1 c2 c3 runP bindR py_cos py_powZ]. rewrite !fpow_even by lia. cbn. eauto.
  - intros q k Hk. cbn [metricfun_of gjac]. unfold jacobian_g, jac_upper, diff_g.
    assert (Z : negb ((Z.of_nat k =? 0)%Z || (Z.of_nat k =? 1)%Z || (Z.of_nat k =? 2)%Z || (Z.of_nat k =? 3)%Z) = false) by (ix k Hk; reflexivity). rewrite Z.
    assert (E : exists m, run_metric demo (dual_coords q (Z.to_nat (Z.of_nat k))) = Ok m).
    { unfold run_metric, demo, zeroE, Ec, q4map, q4seq, dual_coords. cbn [c0 c1 c2 c3 runP bindR py_cos py_powZ]. unfold d_powZ. rewrite !fpow_even by lia. cbn [bindR mapR]. eauto. }
    destruct E as [m ->]. cbn. eauto.
Qed.
Lemma demo_symmetries : well_formed demo /\ independent_of demo 0 /\ independent_of demo 3 /\ mirror_program demo /\ circular demo.
Proof.
  split; [intros i j Hi Hj; ix i Hi; ix j Hj; reflexivity|]. split; [intros i j Hi Hj; ix i Hi; ix j Hj; reflexivity|]. split; [intros i j Hi Hj; ix i Hi; ix j Hj; reflexivity|]. split.
  - intros i j Hi Hj. ix i Hi; ix j Hj; unfold mirror_e, demo, mnth; cbn [q4nth c0 c1 c2 c3]; first [eapply par_eq; [apply P_const|ring] | eapply par_eq; [apply P_zero|ring] | eapply par_eq; [eapply P_sq; (apply P_cos || (apply P_var; discriminate))|ring]].
  - intros i j H; cbn in H; repeat (destruct H as [H|H]; [injection H as <- <-; reflexivity|]); contradiction.
Qed.
Lemma demo_geodesic pos mom cart kw : k_order kw = 2%nat -> (0 < k_steps kw)%nat -> exists o, mk_geodesic (MCallable (fun _ => Ok demo)) [] pos mom true cart kw = Ok o.
Proof.
  intros O L. unfold mk_geodesic. cbn [resolve_metric bindR resolve_params]. destruct pos as [[x1 x2] x3], mom as [[u1 u2] u3].
  assert (E : exists p, P4 demo (mkQ4 0 x1 x2 x3) u1 u2 u3 true = Ok p).
  { unfold P4, metric_at, run_metric, demo, zeroE, Ec, q4map, q4seq. cbn [c0 c1 c2 c3 runP bindR py_cos py_powZ]. rewrite !fpow_even by lia. cbn [bindR mapR c0 c1 c2 c3 pf_only q4nth].
    unfold P_of_guu, mnth. cbv zeta. cbn [q4nth c0 c1 c2 c3 b2R]. rewrite !pw2. unfold np_sqrt. destruct (Rle_dec _ _) as [H|H].
    - cbn [bindR]. unfold np_div. destruct (Req_EM_T _ _) as [F|F]; [lra|]. cbn [bindR]. eauto.
    - exfalso. apply H. assert (0 <= (x1 * u2) * (x1 * u2)) by nra. assert (0 <= (cos x2 * u3) * (cos x2 * u3)) by nra. nra. }
  destruct E as [p ->]. cbn [bindR]. destruct (trajectory_total demo (mkQ4 0 x1 x2 x3) p true cart kw demo_total O L) as [t ->]. cbn [bindR]. eauto.
Qed.
(** readable forms for trajectories *)
Definition shift_point (k : nat) (s : R) (q : V4) : V4 := q4tab (fun i => if Nat.eqb i k then q4nth q i + s else q4nth q i).
Definition tphi_point (q : V4) : V4 := mkQ4 (- c0 q) (c1 q) (c2 q) (- c3 q).
Lemma shift_move k s q : move ones (along k s) q = shift_point k s q.
Proof.
  unfold shift_point, ones, along. unfold move; unfold vadd, flipv, q4map2, q4tab. apply Q4_eq; cbn [c0 c1 c2 c3 q4nth];
  match goal with |- context [Nat.eqb ?i k] => destruct (Nat.eqb i k) end; ring.
Qed.
Lemma trajectory_shift g k s q0 p0 tl kw : well_formed g -> independent_of g k ->
  calculate_trajectory g (shift_point k s q0) p0 tl false kw
  = mapR (fun t => (fst t, map (fun r : row => (shift_point k s (fst r), snd r)) (snd t))) (calculate_trajectory g q0 p0 tl false kw).
Proof.
  intros W I. rewrite <- shift_move. rewrite <- (flipv_ones p0) at 1. rewrite (trajectory_move g ones (along k s) q0 p0 tl kw signs_ones (translation g k s W I)).
  destruct (calculate_trajectory g q0 p0 tl false kw) as [[st rows]|]; [|reflexivity]. cbn [mapR]. unfold move_rows, move_row. cbn [fst snd]. do 2 apply f_equal.
  apply map_ext. intros r. rewrite shift_move, flipv_ones. reflexivity.
Qed.
Lemma trajectory_tphi g q0 p0 tl kw : well_formed g -> independent_of g 0 -> independent_of g 3 -> circular g ->
  calculate_trajectory g (tphi_point q0) (tphi_point p0) tl false kw
  = mapR (fun t => (fst t, map (fun r : row => (tphi_point (fst r), tphi_point (snd r))) (snd t))) (calculate_trajectory g q0 p0 tl false kw).
Proof.
  intros W I0 I3 C.
  assert (E1 : forall v, move tphi_e vzero v = tphi_point v) by (intros v; unfold tphi_e, vzero, tphi_point; vring; ring).
  assert (E2 : forall v, flipv tphi_e v = tphi_point v) by (intros v; unfold tphi_e, tphi_point; vring; ring).
  rewrite <- E1, <- E2. rewrite (trajectory_move g _ _ q0 p0 tl kw signs_tphi (tphi_respects g W I0 I3 C)).
  destruct (calculate_trajectory g q0 p0 tl false kw) as [[st rows]|]; [|reflexivity]. cbn [mapR]. unfold move_rows, move_row. cbn [fst snd]. do 2 apply f_equal.
  apply map_ext. intros r. rewrite E1, E2. reflexivity.
Qed.
(** the named metrics *)
Theorem named_rotate s prms x1 x2 x3 mom tl cart kw a : In s ["Schwarzschild"; "Kerr"; "KerrNewman"]%string ->
  mk_geodesic (MName s) prms (x1, x2, x3 + a) mom tl cart kw
  = mapR (map_geo (fun c => rotate_point c a) (fun p => p) cart) (mk_geodesic (MName s) prms (x1, x2, x3) mom tl cart kw).
Proof. intros H. apply geodesic_rotate. apply named_symmetries. exists s. split; [reflexivity|exact H]. Qed.
Theorem named_mirror s prms x1 x2 x3 u1 u2 u3 tl cart kw : In s ["Schwarzschild"; "Kerr"; "KerrNewman"]%string ->
  mk_geodesic (MName s) prms (x1, PI - x2, x3) (u1, - u2, u3) tl cart kw
  = mapR (map_geo mirror_point mirror_momentum cart) (mk_geodesic (MName s) prms (x1, x2, x3) (u1, u2, u3) tl cart kw).
Proof. intros H. apply geodesic_mirror. apply named_symmetries. exists s. split; [reflexivity|exact H]. Qed.
Theorem named_circular s prms call g : In s ["Schwarzschild"; "Kerr"; "KerrNewman"]%string -> resolve_metric (MName s) = Ok call -> call prms = Ok g ->
  well_formed g /\ independent_of g 0 /\ independent_of g 3 /\ circular g.
Proof.
  intros H R C. destruct builtin_well_formed as [[W1 _] [W2 W3]]. destruct builtin_independent as [I1 [I2 I3]]. destruct builtin_circular as [K1 [K2 K3]].
  destruct (named_cases (MName s) call prms g ltac:(exists s; split; [reflexivity|exact H]) R C) as [-> |[[a ->]|[a [Q ->]]]].
  - split; [exact W1|]. split; [apply I1; left; reflexivity|]. split; [apply I1; right; reflexivity|exact K1].
  - split; [apply W2|]. split; [apply I2; left; reflexivity|]. split; [apply I2; right; reflexivity|apply K2].
  - split; [apply W3|]. split; [apply I3; left; reflexivity|]. split; [apply I3; right; reflexivity|apply K3].
Qed.
