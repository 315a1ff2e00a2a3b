(** Global convergence stated on Geodesic trajectories. *)
From Coq Require Import String Reals List ZArith Lra Lia Bool.
From Coquelicot Require Import Coquelicot.
From Verif Require Import Base Calc DualModel DualSpec DualProofs DualDiff GeoUtilsModel GeoUtilsSpec GeoUtilsProofs GeodesicModel GeodesicProofs
  FantasyModel FantasyProofs FantasyProofs2 FantasyProofs3 FantasyHam FantasySymp ProgCont WordSeries WordOrder FantasyOrder FantasyOrder2 FantasyOrder3 FantasyOrder4 FantasyGlobal FantasyGlobal2.
Import ListNotations.
Open Scope R_scope.

(** (q, p) satisfies Hamilton's equations of 1/2 g^ij(q) p_i p_j around every parameter of [0, T], inside the domain of g *)
Definition hamilton (g : metricP) (q p : R -> V4) (t : R) : Prop := forall k, (k < 4)%nat ->
  is_derive (fun u => q4nth (q u) k) t (q4nth (mv (metric_meaning g (q4nth (q t))) (p t)) k)
  /\ exists D, is_derive (fun x => Ham g (vupd (q t) k x) (p t)) (q4nth (q t) k) D /\ is_derive (fun u => q4nth (p u) k) t (- D).
Definition geodesic_on (g : metricP) (q p : R -> V4) (T : R) : Prop :=
  forall t, 0 <= t <= T -> metric_defined g (q4nth (q t)) /\ locally t (hamilton g q p).
Lemma D_shift (f : R -> R) x u a : is_derive f (x + u) a -> is_derive (fun v => f (x + v)) u a.
Proof. intros H. rewrite <- (Rmult_1_l a). apply (D_comp f (fun v => x + v) u); [exact H|]. auto_derive; [exact I|ring]. Qed.
Lemma hamilton_shift g q p x : locally x (hamilton g q p) -> geodesic g (fun u => q (x + u)) (fun u => p (x + u)).
Proof.
  intros [eps H]. exists eps. intros u Hu k Hk.
  assert (B : ball x eps (x + u)). { unfold ball in *; cbn in *. unfold AbsRing_ball, abs, minus, plus, opp in *; cbn in *. replace (x + u + - x) with (u + - 0) by ring. exact Hu. }
  destruct (H _ B k Hk) as [A (D & D1 & D2)]. split; [apply (D_shift (fun v => q4nth (q v) k)); exact A|]. exists D. split; [exact D1|apply (D_shift (fun v => q4nth (p v) k)); exact D2].
Qed.

Lemma good_shift f n s rho M L x t : good f n (fun u => s (x + u)) rho M L (t - x) -> good f n s rho M L t.
Proof.
  unfold good. replace (x + (t - x)) with t by ring. intros [A B]. split; [|exact B]. intros d Hd. destruct (A d Hd) as (y & E & W). exists y. split; [exact E|].
  replace (x + (t - x + d)) with (t + d) in W by ring. exact W.
Qed.
Lemma order_table order g w f : integrator_of order (metricfun_of g) w = Ok f -> forall n, n = 2%nat \/ (order = 4 /\ n = 4)%nat ->
  forall v, (length v <= n)%nat -> coef (composed (weights order)) v = expcoef v.
Proof.
  intros Hf n [-> |[-> ->]] v Hv.
  - apply second_order_condition; [|exact Hv]. rewrite <- powsum_1. apply weights_sum. eapply supported_orders. exact Hf.
  - apply fourth_order_condition. exact Hv.
Qed.
Lemma small_steps T B rho n : 0 < T -> 0 <= B -> 0 < rho -> (0 < n)%nat -> exists N0, (0 < N0)%nat /\ forall N, (N0 <= N)%nat -> T / INR N < rho /\ B * (T / INR N) ^ n < rho.
Proof.
  intros HT HB Hr Hn. set (e := Rmin 1 (Rmin rho (rho / (B + 1)))).
  assert (He : 0 < e) by (unfold e; repeat apply Rmin_pos; try lra; apply Rdiv_lt_0_compat; lra).
  assert (E1 : e <= 1) by apply Rmin_l. assert (E2 : e <= rho) by (unfold e; eapply Rle_trans; [apply Rmin_r|apply Rmin_l]).
  assert (E3 : e <= rho / (B + 1)) by (unfold e; eapply Rle_trans; [apply Rmin_r|apply Rmin_r]). clearbody e.
  assert (P : 0 < T / e) by (apply Rdiv_lt_0_compat; assumption). destruct (nfloor_ex (T / e) (Rlt_le _ _ P)) as (n1 & _ & Hn1).
  assert (HN0 : T / e < INR (S n1)) by (rewrite S_INR; exact Hn1). set (N0 := S n1) in *.
  exists N0. split; [unfold N0; lia|]. intros N HN. apply le_INR in HN. assert (PN : 0 < INR N) by lra.
  assert (H : T / INR N < e).
  { apply Rmult_lt_reg_r with (INR N); [exact PN|]. unfold Rdiv. rewrite Rmult_assoc, Rinv_l, Rmult_1_r by lra.
    assert (Q : T / e < INR N) by lra. apply Rmult_lt_compat_r with (r := e) in Q; [|exact He]. unfold Rdiv in Q. rewrite Rmult_assoc, Rinv_l in Q by lra. lra. }
  assert (H0 : 0 < T / INR N) by (apply Rdiv_lt_0_compat; assumption). split; [lra|].
  assert (H1 : (T / INR N) ^ n <= T / INR N).
  { destruct n as [|n]; [lia|]. cbn [pow]. assert (K : (T / INR N) ^ n <= 1) by (rewrite <- (pow1 n); apply pow_incr; lra). assert (K0 : 0 <= (T / INR N) ^ n) by (apply pow_le; lra). nra. }
  apply Rle_lt_trans with (B * e); [apply Rmult_le_compat_l; lra|].
  assert (H2 : (B + 1) * e <= rho) by (apply Rmult_le_compat_l with (r := B + 1) in E3; [|lra]; replace ((B + 1) * (rho / (B + 1))) with rho in E3 by (field; lra); exact E3). lra.
Qed.
Lemma trajectory_converges order g w f n (q p : R -> V4) T :
  integrator_of order (metricfun_of g) w = Ok f -> n = 2%nat \/ (order = 4 /\ n = 4)%nat ->
  well_formed g -> symmetric_program g -> 0 < T -> geodesic_on g q p T ->
  exists C N0, (0 < N0)%nat /\ forall N tl rtol atol suppress, (N0 <= N)%nat ->
  exists rows, calculate_trajectory g (q 0) (p 0) tl false (mkkw N (T / INR N) rtol atol order w suppress) = Ok (seq 0 N, rows) /\ length rows = N /\
  forall k row, nth_error rows k = Some row -> forall i, (i < 4)%nat ->
    Rabs (q4nth (fst row) i - q4nth (q (INR (S k) * (T / INR N))) i) <= C * (T / INR N) ^ n /\
    Rabs (q4nth (snd row) i - q4nth (p (INR (S k) * (T / INR N))) i) <= C * (T / INR N) ^ n.
Proof.
  intros Hf Hn Hwf Hsym HT Hg. set (s := fun t => doubled (q t) (p t)).
  assert (n0 : (0 < n)%nat) by (destruct Hn as [-> |[_ ->]]; lia).
  destruct (good_compact f n s 0 T ltac:(lra)) as (rho & M & L & Hr & HM & HL & HG).
  { intros x Hx. destruct (Hg x Hx) as [Hd Hx']. apply hamilton_shift in Hx'.
    destruct (good_near order g w f n (fun u => s (x + u)) Hf Hwf Hsym (order_table order g w f Hf n Hn)) as (rho & M & L & A & B & C & D).
    - apply (geodesic_solves g w (fun u => q (x + u)) (fun u => p (x + u)) Hwf Hsym); [rewrite Rplus_0_r; exact Hd|exact Hx'].
    - unfold s. rewrite Rplus_0_r. apply doubled_hdef; assumption.
    - exists rho, M, L. repeat (split; [assumption|]). intros t Ht. apply good_shift with x. apply D. exact Ht. }
  set (B := T * M * exp (L * T)). assert (HB : 0 <= B) by (unfold B; apply Rmult_le_pos; [apply Rmult_le_pos; lra|apply Rlt_le, exp_pos]).
  destruct (small_steps T B rho n HT HB Hr n0) as (N0 & HN0 & HN). exists B, N0. split; [exact HN0|]. intros N tl rtol atol suppress HN'.
  destruct (HN N HN') as [Hh Hb]. assert (PN : (0 < N)%nat) by lia.
  destruct (converge f n s T rho M L HT Hr HM HL HG n0 N PN Hh Hb N (le_n N)) as (l & Ll & Cl & Wl).
  set (h := T / INR N) in *.
  unfold calculate_trajectory, mk_integrator. cbn [k_order k_omega k_delta k_rtol k_atol k_suppress k_steps]. rewrite Hf. cbn [bindR].
  set (It := mkinteg _ _ _ _ _ _ _ _ _ _ _).
  destruct (run_steps_progress N It l) as (It2 & R1 & R2); [|exact Ll|].
  { eapply chain_ext; [|exact Cl]. intros x. unfold next, It. cbn [i_order i_metric i_omega i_delta]. rewrite Hf. reflexivity. }
  rewrite R1. cbn [bindR]. rewrite R2. cbn [It i_results app]. destruct l as [|y0 l0] eqn:El; [cbn in Ll; lia|]. rewrite <- El in *.
  exists (map (fun s => (q1 s, p1 s)) l). split; [rewrite El; reflexivity|]. split; [rewrite map_length; exact Ll|].
  intros k row Hk i Hi. rewrite nth_error_map in Hk. destruct (nth_error l k) as [y|] eqn:Ey; [|discriminate]. injection Hk as <-. cbn [fst snd].
  assert (W := Wl (S k) y Ey). unfold s in W.
  assert (FQ : forall s, flat s i = q4nth (q1 s) i /\ flat s (4 + i) = q4nth (p1 s) i) by (intros x; clear -Hi; revert i Hi; apply q4_cases; split; reflexivity).
  split.
  - assert (A := W i ltac:(lia)). rewrite !(proj1 (FQ _)) in A. exact A.
  - assert (A := W (4 + i)%nat ltac:(lia)). rewrite !(proj2 (FQ _)) in A. exact A.
Qed.

Lemma lin_geodesic_on T : 0 < T -> geodesic_on lin_metric lin_q lin_p T.
Proof.
  intros HT t Ht. split; [apply lin_defined|]. exists (mkposreal 1 Rlt_0_1). intros u Hu. unfold ball in Hu; cbn in Hu. unfold AbsRing_ball, abs, minus, plus, opp in Hu; cbn in Hu.
  intros k Hk. apply lin_point; [|exact Hk]. apply Rabs_def2 in Hu. lra.
Qed.

(** ---- the doubled system off the diagonal ---- *)
(** the extended Hamiltonian H(q1, p2) + H(q2, p1) + w (|q1 - q2|^2 + |p1 - p2|^2) / 2 and Hamilton's equations for it, with
    (q1, p1) and (q2, p2) the conjugate pairs *)
Definition sqdist (a b : V4) : R := rsum 4 (fun i => (q4nth a i - q4nth b i) ^ 2).
Definition extended (g : metricP) (w : R) (s : state) : R :=
  Ham g (q1 s) (p2 s) + Ham g (q2 s) (p1 s) + w / 2 * (sqdist (q1 s) (q2 s) + sqdist (p1 s) (p2 s)).
Definition setc (s : state) (a j : nat) (x : R) : state := mtab (fun b k => if (Nat.eqb b a && Nat.eqb k j)%bool then x else mnth s b k).
Definition extended_solution (g : metricP) (w : R) (s : R -> state) : Prop :=
  locally 0 (fun t => forall a j, a = 0%nat \/ a = 2%nat -> (j < 4)%nat -> exists Dq Dp,
    is_derive (fun x => extended g w (setc (s t) a j x)) (mnth (s t) a j) Dq /\ is_derive (fun x => extended g w (setc (s t) (S a) j x)) (mnth (s t) (S a) j) Dp /\
    is_derive (fun u => mnth (s u) a j) t Dp /\ is_derive (fun u => mnth (s u) (S a) j) t (- Dq)).
Definition extE (g : metricP) (w : R) : pexpr := EAdd (EAdd (HA g) (HB g)) (HC w).
Lemma extE_below g w : well_formed g -> below 16 (extE g w) = true.
Proof. intros H. unfold extE. cbn [below]. apply andb_true_intro. split; [apply andb_true_intro; split|]; [apply (Hgen_below g w GA H)|apply (Hgen_below g w GB H)|apply (Hgen_below g w GC H)]. Qed.
Lemma metric_meaning_ext g (x y : nat -> R) : well_formed g -> (forall i, (i < 4)%nat -> x i = y i) -> metric_meaning g x = metric_meaning g y.
Proof.
  intros Hwf H. assert (E : forall i j, (i < 4)%nat -> (j < 4)%nat -> meaning x (mnth g i j) = meaning y (mnth g i j)) by (intros i j Hi Hj; apply (meaning_ext_b 4); [rewrite <- below_vars; apply Hwf; assumption|exact H]).
  unfold metric_meaning, q4map. apply Q4_eq; cbn [c0 c1 c2 c3]; apply Q4_eq; cbn [c0 c1 c2 c3]; first [apply (E 0%nat 0%nat); lia|apply (E 0%nat 1%nat); lia|apply (E 0%nat 2%nat); lia|apply (E 0%nat 3%nat); lia|apply (E 1%nat 0%nat); lia|apply (E 1%nat 1%nat); lia|apply (E 1%nat 2%nat); lia|apply (E 1%nat 3%nat); lia|apply (E 2%nat 0%nat); lia|apply (E 2%nat 1%nat); lia|apply (E 2%nat 2%nat); lia|apply (E 2%nat 3%nat); lia|apply (E 3%nat 0%nat); lia|apply (E 3%nat 1%nat); lia|apply (E 3%nat 2%nat); lia|apply (E 3%nat 3%nat); lia].
Qed.
Lemma extended_meaning g w s : well_formed g -> extended g w s = meaning (flat s) (extE g w).
Proof.
  intros Hwf. unfold extended, extE, HA, HB. cbn [meaning]. rewrite !hamE_meaning. unfold Ham.
  rewrite (metric_meaning_ext g (fun i => flat s (0 + i)) (q4nth (q1 s)) Hwf) by (apply q4_cases; reflexivity).
  rewrite (metric_meaning_ext g (fun i => flat s (8 + i)) (q4nth (q2 s)) Hwf) by (apply q4_cases; reflexivity).
  f_equal. unfold HC, sqdist. cbn [meaning]. rewrite esum_meaning. cbn [rsum meaning sqE]. cbn [flat Nat.div Nat.divmod Nat.modulo fst snd Nat.sub Nat.add q4nth].
  unfold q1, q2, p1, p2. ring.
Qed.
Lemma setc_flat s a j x k : (a < 4)%nat -> (j < 4)%nat -> (k < 16)%nat -> flat (setc s a j x) k = upd (flat s) (4 * a + j) x k.
Proof.
  intros Ha Hj Hk.
  destruct a as [|[|[|[|a]]]]; [| | | |lia]; (destruct j as [|[|[|[|j]]]]; [| | | |lia]); clear Ha Hj; revert k Hk; apply lt16; reflexivity.
Qed.
Lemma extE_defined g w s : hdef g (flat s) -> defined_at (flat s) (extE g w).
Proof. intros Hd. unfold extE. cbn [defined_at]. split; [exact Hd|apply (Hgen_defined g w GC), Hd]. Qed.
Lemma flat_mnth s a j : (a < 4)%nat -> (j < 4)%nat -> flat s (4 * a + j) = mnth s a j.
Proof.
  intros Hi Hj. unfold flat, mnth. rewrite (Nat.mul_comm 4 a), Nat.div_add_l, (Nat.div_small j 4), Nat.add_0_r by lia.
  rewrite Nat.add_comm, Nat.mod_add, Nat.mod_small by lia. reflexivity.
Qed.
Lemma extended_partial g w s a j D : well_formed g -> hdef g (flat s) -> (a < 4)%nat -> (j < 4)%nat ->
  is_derive (fun x => extended g w (setc s a j x)) (mnth s a j) D -> D = gsum (fun X => meaning (flat s) (pd (4 * a + j) (Hgen g w X))).
Proof.
  intros Hwf Hd Ha Hj HD. assert (Hb := extE_below g w Hwf).
  assert (P := pd_partial 16 (extE g w) (flat s) (4 * a + j) Hb (extE_defined g w s Hd) ltac:(lia)).
  rewrite flat_mnth in P by assumption.
  assert (P' : is_derive (fun x => extended g w (setc s a j x)) (mnth s a j) (meaning (flat s) (pd (4 * a + j) (extE g w)))).
  { eapply D_ext; [|exact P]. intros x. cbn beta. rewrite extended_meaning by exact Hwf. symmetry. apply (meaning_ext_b 16); [exact Hb|]. intros k Hk. apply setc_flat; assumption. }
  rewrite (D_unique _ _ _ _ HD P'). unfold extE, gsum. cbn [pd meaning Hgen]. reflexivity.
Qed.
Lemma extended_solves g w (s : R -> state) : well_formed g -> hdef g (flat (s 0)) -> extended_solution g w s -> solves g w s.
Proof.
  intros Hwf Hd [eps He]. destruct (hdef_near g (s 0) Hwf Hd) as (r & Hr & H).
  assert (B : forall t, Rabs t < eps -> ball 0 eps t) by (intros t Ht; unfold ball; cbn; unfold AbsRing_ball, abs, minus, plus, opp; cbn; rewrite Ropp_0, Rplus_0_r; exact Ht).
  assert (C : forall i, (i < 16)%nat -> forall t, Rabs t < eps -> exists D, is_derive (fun u => flat (s u) i) t D).
  { intros i Hi t Ht. assert (K := He t (B t Ht)).
    assert (E : exists a j, (a = 0%nat \/ a = 2%nat) /\ (j < 4)%nat /\ (i = 4 * a + j \/ i = 4 * S a + j)%nat).
    { clear -Hi. assert (X : exists a j, (a < 4)%nat /\ (j < 4)%nat /\ i = (4 * a + j)%nat). { exists (i / 4)%nat, (i mod 4)%nat. split; [apply Nat.div_lt_upper_bound; lia|]. split; [apply Nat.mod_upper_bound; lia|apply Nat.div_mod; lia]. }
      destruct X as (a & j & Ha & Hj & ->). destruct a as [|[|[|[|a]]]]; [| | | |lia]; [exists 0%nat, j|exists 0%nat, j|exists 2%nat, j|exists 2%nat, j]; (split; [tauto|]; split; [exact Hj|lia]). }
    destruct E as (a & j & Ha & Hj & E). destruct (K a j Ha Hj) as (Dq & Dp & _ & _ & D1 & D2). assert (a < 3)%nat by lia. destruct E as [-> | ->].
    - exists Dp. apply (D_ext (fun u => mnth (s u) a j)); [intros u; symmetry; apply flat_mnth; lia|exact D1].
    - exists (- Dq). apply (D_ext (fun u => mnth (s u) (S a) j)); [intros u; symmetry; apply flat_mnth; lia|exact D2]. }
  destruct (uniform_below (fun i rho _ => forall t, Rabs t < rho -> Rabs (flat (s t) i - flat (s 0) i) < r) 16) as (rho & M & Hrho & _ & Hn).
  { intros k x x' _ _ _ HP Hx _ t Ht. apply HP. lra. }
  { intros i Hi. destruct (C i Hi 0) as (D & HD); [rewrite Rabs_R0; apply cond_pos|]. assert (Q := D_continuous _ _ _ HD).
    destruct (Q (fun y => Rabs (y - flat (s 0) i) < r)) as [e E]. { exists (mkposreal r Hr). intros y Hy. exact Hy. }
    exists e, 0. split; [apply cond_pos|]. split; [lra|]. intros t Ht. apply E. unfold ball; cbn. unfold AbsRing_ball, abs, minus, plus, opp; cbn. rewrite Ropp_0, Rplus_0_r. exact Ht. }
  exists (Rmin eps rho). split; [apply Rmin_pos; [apply cond_pos|exact Hrho]|]. intros t Ht i Hi.
  assert (Te : Rabs t < eps) by (eapply Rlt_le_trans; [exact Ht|apply Rmin_l]). assert (Tr : Rabs t < rho) by (eapply Rlt_le_trans; [exact Ht|apply Rmin_r]).
  assert (Hdt : hdef g (flat (s t))) by (apply H; intros k Hk; apply Hn; assumption).
  assert (K := He t (B t Te)).
  assert (G : forall c, gsum (fun X => meaning (flat (s t)) (field (Hgen g w X) i)) = c -> c = sgn i * gsum (fun X => meaning (flat (s t)) (pd (conj i) (Hgen g w X)))).
  { intros c <-. unfold gsum, field. cbn [meaning]. ring. }
  rewrite (G _ eq_refl). clear G.
  assert (E : exists a j, (a = 0%nat \/ a = 2%nat) /\ (j < 4)%nat /\ ((i = 4 * a + j /\ conj i = 4 * S a + j)%nat /\ sgn i = 1 \/ (i = 4 * S a + j /\ conj i = 4 * a + j)%nat /\ sgn i = -1)).
  { clear -Hi. revert i Hi. apply lt16.
    all: first [exists 0%nat, 0%nat; split; [tauto|]; split; [lia|]; (left + right); split; [split; reflexivity|reflexivity]
      |exists 0%nat, 1%nat; split; [tauto|]; split; [lia|]; (left + right); split; [split; reflexivity|reflexivity]
      |exists 0%nat, 2%nat; split; [tauto|]; split; [lia|]; (left + right); split; [split; reflexivity|reflexivity]
      |exists 0%nat, 3%nat; split; [tauto|]; split; [lia|]; (left + right); split; [split; reflexivity|reflexivity]
      |exists 2%nat, 0%nat; split; [tauto|]; split; [lia|]; (left + right); split; [split; reflexivity|reflexivity]
      |exists 2%nat, 1%nat; split; [tauto|]; split; [lia|]; (left + right); split; [split; reflexivity|reflexivity]
      |exists 2%nat, 2%nat; split; [tauto|]; split; [lia|]; (left + right); split; [split; reflexivity|reflexivity]
      |exists 2%nat, 3%nat; split; [tauto|]; split; [lia|]; (left + right); split; [split; reflexivity|reflexivity]]. }
  destruct E as (a & j & Ha & Hj & E). destruct (K a j Ha Hj) as (Dq & Dp & P1 & P2 & D1 & D2). assert (La : (a < 3)%nat) by lia.
  destruct E as [[[Ei Ec] Es]|[[Ei Ec] Es]]; rewrite Ec, Es.
  - rewrite <- (extended_partial g w (s t) (S a) j Dp Hwf Hdt ltac:(lia) Hj P2), Rmult_1_l, Ei. apply (D_ext (fun u => mnth (s u) a j)); [intros u; symmetry; apply flat_mnth; lia|exact D1].
  - rewrite <- (extended_partial g w (s t) a j Dq Hwf Hdt ltac:(lia) Hj P1), Ei. apply (D_ext (fun u => mnth (s u) (S a) j)); [intros u; symmetry; apply flat_mnth; lia|]. eapply D_eq; [exact D2|ring].
Qed.
Lemma doubled_accuracy order g w f n (s : R -> state) :
  integrator_of order (metricfun_of g) w = Ok f -> n = 2%nat \/ (order = 4 /\ n = 4)%nat -> well_formed g -> symmetric_program g ->
  metric_defined g (q4nth (q1 (s 0))) -> metric_defined g (q4nth (q2 (s 0))) -> extended_solution g w s ->
  exists r M, 0 < r /\ forall delta, Rabs delta < r -> exists s', f delta (s 0) = Ok s' /\
    forall i j, (i < 4)%nat -> (j < 4)%nat -> Rabs (mnth s' i j - mnth (s delta) i j) <= M * Rabs delta ^ S n.
Proof.
  intros Hf Hn Hwf Hsym H1 H2 Hs.
  assert (Hd : hdef g (flat (s 0))). { split; apply hamE_defined; [apply (metric_defined_ext g (q4nth (q1 (s 0))))|apply (metric_defined_ext g (q4nth (q2 (s 0))))]; try assumption; apply q4_cases; reflexivity. }
  destruct (good_near order g w f n s Hf Hwf Hsym (order_table order g w f Hf n Hn) (extended_solves g w s Hwf Hd Hs) Hd) as (rho & M & L & Hr & _ & _ & G).
  destruct (G 0) as [G1 _]; [rewrite Rabs_R0; exact Hr|]. exists rho, M. split; [exact Hr|]. intros d Hdd. destruct (G1 d Hdd) as (y & E & W). exists y. split; [exact E|].
  intros i j Hi Hj. assert (Q := W (4 * i + j)%nat ltac:(lia)). rewrite Rplus_0_l, !flat_mnth in Q by assumption. exact Q.
Qed.
