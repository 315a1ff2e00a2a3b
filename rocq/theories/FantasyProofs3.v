From Coq Require Import Reals List ZArith Lra Lia Bool.
From Coquelicot Require Import Coquelicot.
From Verif Require Import Base Calc DualModel DualSpec DualProofs GeoUtilsModel GeoUtilsSpec GeoUtilsProofs
  FantasyModel FantasyProofs FantasyProofs2.
Import ListNotations.
Open Scope R_scope.

(** ** C09: half flows are exact Hamiltonian flows *)
Definition vupd (v : V4) (i : nat) (x : R) : V4 := q4tab (fun j => if Nat.eqb j i then x else q4nth v j).
(** the geodesic Hamiltonian 1/2 g^{ij}(q) p_i p_j of a metric program *)
Definition Ham (g : metricP) (q p : V4) : R := / 2 * quad (metric_meaning g (q4nth q)) p.
Definition symmetric_program (g : metricP) : Prop :=
  forall q i j, (i < 4)%nat -> (j < 4)%nat -> meaning q (mnth g i j) = meaning q (mnth g j i).

Lemma vupd_nth v i x j : (j < 4)%nat -> q4nth (vupd v i x) j = upd (q4nth v) i x j.
Proof. intros Hj. unfold vupd, upd. apply (q4nth_tab (fun j => if Nat.eqb j i then x else q4nth v j)); assumption. Qed.

(** programs only read x_vec[0..3] *)
Fixpoint vars_below4 (e : pexpr) : bool :=
  match e with
  | EVar i => Nat.ltb i 4
  | EConst _ => true
  | EAdd a b | ESub a b | EMul a b | EDiv a b => vars_below4 a && vars_below4 b
  | ENeg a | EPow a _ | EPowR a _ | ESin a | ECos a | ETan a | ELog a | EExp a => vars_below4 a
  end.
Definition well_formed (g : metricP) : Prop := forall i j, (i < 4)%nat -> (j < 4)%nat -> vars_below4 (mnth g i j) = true.

Lemma meaning_ext4 e f h : vars_below4 e = true -> (forall i, (i < 4)%nat -> f i = h i) -> meaning f e = meaning h e.
Proof.
  intros Hv H. induction e; simpl in *; try (apply andb_prop in Hv; destruct Hv);
    rewrite ?IHe, ?IHe1, ?IHe2 by assumption; try reflexivity.
  apply H. apply Nat.ltb_lt; assumption.
Qed.

Lemma quad_sum m p : quad m p =
  sum_f_R0 (fun i => sum_f_R0 (fun j => mnth m i j * q4nth p i * q4nth p j) 3) 3.
Proof.
  unfold quad, mv, dot, q4map, mnth; simpl. ring.
Qed.

Lemma D_sum4 (f : nat -> R -> R) (t : R) (a : nat -> R) :
  (forall i, (i < 4)%nat -> is_derive (f i) t (a i)) ->
  is_derive (fun s => sum_f_R0 (fun i => f i s) 3) t (sum_f_R0 a 3).
Proof.
  intros H. simpl. repeat apply D_plus; apply H; lia.
Qed.

Lemma quad_derive_metric (m : R -> M4) (dm : M4) (t : R) p :
  (forall i j, (i < 4)%nat -> (j < 4)%nat -> is_derive (fun s => mnth (m s) i j) t (mnth dm i j)) ->
  is_derive (fun s => quad (m s) p) t (quad dm p).
Proof.
  intros H. rewrite quad_sum.
  apply (D_ext (fun s => sum_f_R0 (fun i => sum_f_R0 (fun j => mnth (m s) i j * q4nth p i * q4nth p j) 3) 3)).
  { intros s. rewrite quad_sum. reflexivity. }
  apply (D_sum4 (fun i s => sum_f_R0 (fun j => mnth (m s) i j * q4nth p i * q4nth p j) 3)).
  intros i Hi. apply (D_sum4 (fun j s => mnth (m s) i j * q4nth p i * q4nth p j)). intros j Hj.
  eapply D_eq; [apply D_mult; [apply D_mult; [apply (H i j Hi Hj)|apply D_const]|apply D_const]|]. cbv beta; ring.
Qed.

Lemma vec_lin_derive (v w : V4) (d : R) i : (i < 4)%nat ->
  is_derive (fun t => q4nth (vadd v (vscal t w)) i) d (q4nth w i).
Proof.
  intros Hi. apply (D_ext (fun t => q4nth v i + t * q4nth w i)).
  { intros s. rewrite vadd_nth, vscal_nth by assumption. reflexivity. }
  eapply D_eq; [apply D_plus; [apply D_const|apply D_mult; [apply D_id|apply D_const]]|]. cbv beta; ring.
Qed.
Lemma vec_lin_derive_neg (v w : V4) (d : R) i : (i < 4)%nat ->
  is_derive (fun t => q4nth (vsub v (vscal t w)) i) d (- q4nth w i).
Proof.
  intros Hi. apply (D_ext (fun t => q4nth v i - t * q4nth w i)).
  { intros s. rewrite vsub_nth, vscal_nth by assumption. reflexivity. }
  eapply D_eq; [apply D_minus; [apply D_const|apply D_mult; [apply D_id|apply D_const]]|]. cbv beta; ring.
Qed.

Definition hamilton_curve (g : metricP) (q_fixed p_fixed : V4) (qc pc : R -> V4) : Prop :=
  (* q' = dH/dp, p' = -dH/dq with H evaluated at the frozen copies *)
  forall (d : R) i, (i < 4)%nat ->
    (exists h, is_derive (fun x => Ham g q_fixed (vupd p_fixed i x)) (q4nth p_fixed i) h
            /\ is_derive (fun t => q4nth (qc t) i) d h)
    /\ (exists h, is_derive (fun x => Ham g (vupd q_fixed i x) p_fixed) (q4nth q_fixed i) h
            /\ is_derive (fun t => q4nth (pc t) i) d (- h)).

Lemma Ham_dq g q p k : well_formed g -> symmetric_program g -> metric_defined g (q4nth q) -> (k < 4)%nat ->
  exists J, jacobian_g g q (Z.of_nat k) = Ok J /\
   is_derive (fun x => Ham g (vupd q k x) p) (q4nth q k) (/ 2 * quad J p).
Proof.
  intros Hwf Hsym Hdef Hk. destruct (jacobian_correct g q k Hk Hdef) as (J & HJ & Hs & Hd).
  exists J. split; [exact HJ|]. unfold Ham.
  apply (D_scal (fun x => quad (metric_meaning g (q4nth (vupd q k x))) p)).
  apply quad_derive_metric. intros i j Hi Hj.
  apply (D_ext (fun s => meaning (upd (q4nth q) k s) (mnth g i j))).
  { intros s. unfold metric_meaning. rewrite mnth_map by assumption.
    apply meaning_ext4; [apply Hwf; assumption|]. intros a Ha. symmetry. apply vupd_nth; assumption. }
  destruct (Nat.le_ge_cases i j) as [L|L].
  - apply Hd; assumption.
  - rewrite Hs by assumption. apply (D_ext (fun s => meaning (upd (q4nth q) k s) (mnth g j i))).
    { intros s. apply Hsym; assumption. } apply Hd; assumption.
Qed.

Lemma Ham_dp g q p k : symmetric_program g -> (k < 4)%nat ->
  is_derive (fun x => Ham g q (vupd p k x)) (q4nth p k) (q4nth (mv (metric_meaning g (q4nth q)) p) k).
Proof.
  intros Hsym Hk. unfold Ham. set (m := metric_meaning g (q4nth q)).
  assert (Hm : forall i j, (i < 4)%nat -> (j < 4)%nat -> mnth m i j = mnth m j i).
  { intros i j Hi Hj. unfold m, metric_meaning. rewrite !mnth_map by assumption. apply Hsym; assumption. }
  clearbody m. clear Hsym.
  assert (E01 := Hm 1%nat 0%nat ltac:(lia) ltac:(lia)). assert (E02 := Hm 2%nat 0%nat ltac:(lia) ltac:(lia)).
  assert (E03 := Hm 3%nat 0%nat ltac:(lia) ltac:(lia)). assert (E12 := Hm 2%nat 1%nat ltac:(lia) ltac:(lia)).
  assert (E13 := Hm 3%nat 1%nat ltac:(lia) ltac:(lia)). assert (E23 := Hm 3%nat 2%nat ltac:(lia) ltac:(lia)).
  clear Hm.
  destruct m as [[a00 a01 a02 a03] [a10 a11 a12 a13] [a20 a21 a22 a23] [a30 a31 a32 a33]], p as [x0 x1 x2 x3].
  unfold mnth in *; cbn [q4nth c0 c1 c2 c3] in *. subst.
  revert k Hk. apply q4_cases; unfold quad, mv, dot, q4map, vupd, q4tab; cbn [q4nth c0 c1 c2 c3 Nat.eqb];
    (auto_derive; [exact Logic.I|field]).
Qed.

Lemma half_flow_A g s : well_formed g -> symmetric_program g -> metric_defined g (q4nth (q1 s)) ->
  exists u : R -> state,
    (forall d, apply_A (metricfun_of g) d s = Ok (u d))
    /\ u 0 = s
    /\ (forall d, q1 (u d) = q1 s /\ p2 (u d) = p2 s)
    /\ hamilton_curve g (q1 s) (p2 s) (fun d => q2 (u d)) (fun d => p1 (u d)).
Proof.
  intros Hwf Hsym Hdef.
  destruct (Ham_dq g (q1 s) (p2 s) 0 Hwf Hsym Hdef ltac:(lia)) as (J0 & HJ0 & D0).
  destruct (Ham_dq g (q1 s) (p2 s) 1 Hwf Hsym Hdef ltac:(lia)) as (J1 & HJ1 & D1).
  destruct (Ham_dq g (q1 s) (p2 s) 2 Hwf Hsym Hdef ltac:(lia)) as (J2 & HJ2 & D2).
  destruct (Ham_dq g (q1 s) (p2 s) 3 Hwf Hsym Hdef ltac:(lia)) as (J3 & HJ3 & D3).
  set (grad := mkQ4 (/ 2 * quad J0 (p2 s)) (/ 2 * quad J1 (p2 s)) (/ 2 * quad J2 (p2 s)) (/ 2 * quad J3 (p2 s))).
  set (m := metric_meaning g (q4nth (q1 s))).
  assert (Hgrad : ham_grad (metricfun_of g) (q1 s) (p2 s) = Ok grad).
  { unfold ham_grad, part_ham_flow, metricfun_of, q4seq, q4tab. cbn [gjac c0 c1 c2 c3].
    rewrite HJ0, HJ1, HJ2, HJ3. reflexivity. }
  exists (fun d => mkQ4 (q1 s) (vsub (p1 s) (vscal d grad)) (vadd (q2 s) (vscal d (mv m (p2 s)))) (p2 s)).
  split; [|split; [|split]].
  - intros d. unfold apply_A, flow_A. rewrite Hgrad. cbn [bindR gval metricfun_of].
    rewrite (metric_at_Ok g (q1 s) Hdef). reflexivity.
  - dstate s. unfold q1, p1, q2, p2, vsub, vadd, vscal, q4map2, q4map; cbn [c0 c1 c2 c3].
    f_equal; f_equal; ring.
  - intros d; split; reflexivity.
  - intros d i Hi. split.
    + exists (q4nth (mv m (p2 s)) i). split; [apply Ham_dp; assumption|].
      unfold q2; cbn [c2]. apply vec_lin_derive; assumption.
    + exists (q4nth grad i). split; [|unfold p1 at 1; cbn [c1]; apply vec_lin_derive_neg; assumption].
      revert i Hi; apply q4_cases; assumption.
Qed.

Definition swap (s : state) : state := mkQ4 (q2 s) (p2 s) (q1 s) (p1 s).
Lemma apply_B_swap G d s : apply_B G d s = mapR swap (apply_A G d (swap s)).
Proof.
  unfold apply_A, apply_B, flow_A, flow_B, swap, q1, q2, p1, p2; cbn [c0 c1 c2 c3].
  destruct (ham_grad G (c2 s) (c1 s)); [|reflexivity]. cbn [bindR].
  destruct (gval G (c2 s)); reflexivity.
Qed.
Lemma half_flow_B g s : well_formed g -> symmetric_program g -> metric_defined g (q4nth (q2 s)) ->
  exists u : R -> state,
    (forall d, apply_B (metricfun_of g) d s = Ok (u d))
    /\ u 0 = s
    /\ (forall d, q2 (u d) = q2 s /\ p1 (u d) = p1 s)
    /\ hamilton_curve g (q2 s) (p1 s) (fun d => q1 (u d)) (fun d => p2 (u d)).
Proof.
  intros Hwf Hsym Hdef. destruct (half_flow_A g (swap s) Hwf Hsym Hdef) as (u & H1 & H2 & H3 & H4).
  exists (fun d => swap (u d)). split; [|split; [|split]].
  - intros d. rewrite apply_B_swap, H1. reflexivity.
  - rewrite H2. destruct s; reflexivity.
  - intros d. exact (H3 d).
  - exact H4.
Qed.

(** both half flows conserve their own Hamiltonian *)
Lemma half_energy_A g d s s' : apply_A (metricfun_of g) d s = Ok s' ->
  Ham g (q1 s') (p2 s') = Ham g (q1 s) (p2 s).
Proof.
  unfold apply_A. intros H. apply bindR_Ok in H. destruct H as (qp & _ & E). apply Ok_inj in E. subst s'. reflexivity.
Qed.
Lemma half_energy_B g d s s' : apply_B (metricfun_of g) d s = Ok s' ->
  Ham g (q2 s') (p1 s') = Ham g (q2 s) (p1 s).
Proof.
  unfold apply_B. intros H. apply bindR_Ok in H. destruct H as (qp & _ & E). apply Ok_inj in E. subst s'. reflexivity.
Qed.

Lemma builtin_well_formed :
  (well_formed schE /\ symmetric_program schE)
  /\ (forall a, well_formed (kerrE a) /\ symmetric_program (kerrE a))
  /\ (forall a Q, well_formed (kerrnewmanE a Q) /\ symmetric_program (kerrnewmanE a Q)).
Proof.
  split; [|split]; intros; (split; [intros i j Hi Hj|intros q i j Hi Hj]);
    revert i Hi; apply q4_cases; revert j Hj; apply q4_cases; reflexivity.
Qed.
