(** C107: initial value problems solved by einsteinpy have exactly one solution near the initial point, and the solvers converge to it. *)
From Coq Require Import String Reals List ZArith Lra Lia Bool.
From Coquelicot Require Import Coquelicot.
From Verif Require FantasyOrder2.
From Verif Require Import Base Calc DualModel DualSpec DualProofs DualDiff GeoUtilsModel GeoUtilsSpec GeoUtilsProofs GeodesicModel GeodesicProofs CoordModel CoordProofs2 ConvModel ConvProofs
  FantasyModel FantasyProofs FantasyProofs2 FantasyProofs3 FantasyHam FantasyOrder FantasyGlobal FantasyGlobal2 FantasyGlobal3 FantasyCircular ProgCont
  RKModel RKProofs RKOrder RKOrder2 RKGlobal RKGlobal2 RKProg
  MetricModel MetricSpec MetricProofs MetricProofs2 MetricProofs3 MetricProofs4 MetricProofs5 MetricProofs6 MetricProofs7 MetricUnify MetricHamilton MetricHamilton2 MetricRK Picard.
Import ListNotations.
Open Scope R_scope.

(** *** autonomous systems of programs *)
Lemma picard_programs N es z0 : (forall i, (i < N)%nat -> below N (es i) = true) -> (forall i, (i < N)%nat -> defined_at z0 (es i)) ->
  exists d y, 0 < d /\ (forall i, (i < N)%nat -> y 0 i = z0 i) /\ forall t, Rabs t < d -> forall i, (i < N)%nat -> defined_at (y t) (es i) /\ is_derive (fun u => y u i) t (meaning (y t) (es i)).
Proof.
  intros Hs Hd.
  destruct (uniform_below (fun i r M => forall z, near N r z0 z -> defined_at z (es i) /\ Rabs (meaning z (es i)) <= M) N) as (r1 & M & Hr1 & HM & H1).
  { intros i r r' M M' _ H Hr HM z Hz. destruct (H z (near_le _ _ _ _ _ Hr Hz)) as [A B]. split; [exact A|lra]. }
  { intros i Hi. exact (prog_bounded N (es i) z0 (Hs i Hi) (Hd i Hi)). }
  destruct (uniform_below (fun i r L => forall z z', near N r z0 z -> near N r z0 z' -> forall eps, (forall k, (k < N)%nat -> Rabs (z k - z' k) <= eps) -> 0 <= eps -> Rabs (meaning z (es i) - meaning z' (es i)) <= L * eps) N) as (r2 & L & Hr2 & HL & H2).
  { intros i r r' M0 M' HM0 H Hr HM' z z' Hz Hz' eps He E0. eapply Rle_trans; [apply (H z z'); [exact (near_le _ _ _ _ _ Hr Hz)|exact (near_le _ _ _ _ _ Hr Hz')|exact He|exact E0]|].
    apply Rmult_le_compat_r; assumption. }
  { intros i Hi. destruct (prog_lip N (es i) z0 (Hs i Hi) (Hd i Hi)) as (r & L & Hr & HL & H). exists r, L. split; [exact Hr|]. split; [exact HL|]. intros z z' Hz Hz' eps He _. apply (H z z'); assumption. }
  set (r := Rmin r1 r2). assert (Hr : 0 < r) by (apply Rmin_pos; assumption). assert (R1 : r <= r1) by apply Rmin_l. assert (R2 : r <= r2) by apply Rmin_r.
  destruct (picard N (fun z i => meaning z (es i)) z0 r M L Hr HM HL) as (d & y & Hd' & E0 & H).
  - intros z i Hz Hi. apply (H1 i Hi). exact (near_le _ _ _ _ _ R1 Hz).
  - intros z z' i eps Hz Hz' He Hi. apply (H2 i Hi z z'); [exact (near_le _ _ _ _ _ R2 Hz)|exact (near_le _ _ _ _ _ R2 Hz')|exact He|]. eapply Rle_trans; [apply Rabs_pos|exact (He i Hi)].
  - exists d, y. split; [exact Hd'|]. split; [exact E0|]. intros t Ht i Hi. destruct (H t Ht) as [Hn D]. split; [apply (H1 i Hi); exact (near_le _ _ _ _ _ R1 Hn)|apply D; exact Hi].
Qed.

(** *** systems with time *)
Definition shift_system (es : nat -> pexpr) (i : nat) : pexpr := match i with O => EConst 1 | S i => es i end.
Lemma solution_exists n es t0 y0 : system n es -> defined_for n es t0 y0 ->
  exists T y, 0 < T /\ y t0 = y0 /\ forall t, Rabs (t - t0) < T -> defined_for n es t (y t) /\ solves_near n (program_rhs es) y t.
Proof.
  intros Hs Hd. destruct (picard_programs (S n) (shift_system es) (point t0 y0)) as (d & Z & Hd' & E0 & H).
  { intros [|i] Hi; [reflexivity|]. apply Hs. lia. }
  { intros [|i] Hi; [exact I|]. apply Hd. lia. }
  assert (ET : forall s, Rabs s < d -> Z s 0%nat = t0 + s).
  { intros s Hs'. assert (A : forall u, Rmin 0 s <= u <= Rmax 0 s -> is_derive (fun u => Z u 0%nat) u 1).
    { intros u Hu. apply (H u). { apply Rabs_def2 in Hs'. apply Rabs_def1; revert Hu; unfold Rmin, Rmax; destruct (Rle_dec 0 s); intros; lra. } lia. }
    destruct (MVT_gen (fun u => Z u 0%nat) 0 s (fun _ => 1)) as (c & _ & E).
    { intros u Hu. apply A. lra. }
    { intros u Hu. apply continuity_pt_filterlim. eapply D_continuous. apply A. exact Hu. }
    rewrite (E0 0%nat ltac:(lia)) in E. cbn [point] in E. lra. }
  set (y := fun t i => if Nat.ltb i n then Z (t - t0) (S i) else y0 i).
  assert (Yp : forall t k, Rabs (t - t0) < d -> (k < S n)%nat -> point t (y t) k = Z (t - t0) k).
  { intros t [|k] Ht Hk; cbn [point]; [rewrite ET by exact Ht; ring|]. unfold y. destruct (Nat.ltb_spec k n); [reflexivity|lia]. }
  exists d, y. split; [exact Hd'|]. split.
  { apply FunctionalExtensionality.functional_extensionality. intros i. unfold y. destruct (Nat.ltb_spec i n) as [Hi|]; [|reflexivity]. rewrite Rminus_eq_0. rewrite (E0 (S i) ltac:(lia)). reflexivity. }
  assert (DF : forall t, Rabs (t - t0) < d -> defined_for n es t (y t)).
  { intros t Ht i Hi. apply (defined_ext_b (S n) (es i) (Z (t - t0)) (point t (y t))); [apply Hs; exact Hi|intros k Hk; symmetry; apply Yp; assumption|]. exact (proj1 (H (t - t0) Ht (S i) ltac:(lia))). }
  intros t Ht. split; [apply DF; exact Ht|]. exists (d - Rabs (t - t0)). split; [lra|]. intros u i Hu Hi.
  assert (Hu' : Rabs (u - t0) < d) by (replace (u - t0) with ((u - t) + (t - t0)) by ring; eapply Rle_lt_trans; [apply Rabs_triang|lra]).
  apply (is_derive_ext (fun v => Z (v - t0) (S i))). { intros v. unfold y. destruct (Nat.ltb_spec i n); [reflexivity|lia]. }
  assert (D := proj2 (H (u - t0) Hu' (S i) ltac:(lia))). cbn [shift_system] in D.
  assert (EM : meaning (Z (u - t0)) (es i) = program_rhs es u (y u) i). { unfold program_rhs. apply (meaning_ext_b (S n)); [apply Hs; exact Hi|]. intros k Hk. symmetry. apply Yp; assumption. }
  rewrite EM in D. rewrite <- (Rmult_1_l (program_rhs es u (y u) i)). apply (D_comp (fun v => Z v (S i)) (fun v => v - t0) u); [exact D|]. auto_derive; [exact I|ring].
Qed.

(** *** two limits of the same computation are equal *)
Lemma same_limit (x y C C' T : R) n N0 : (1 <= n)%nat ->
  (forall N, (N0 <= N)%nat -> exists a, Rabs (a - x) <= C * (Rabs T / INR N) ^ n /\ Rabs (a - y) <= C' * (Rabs T / INR N) ^ n) -> x = y.
Proof.
  intros Hn H. apply Rminus_diag_uniq. apply Rabs_eq_0. apply Rle_antisym; [|apply Rabs_pos]. apply le_epsilon. intros eps He. rewrite Rplus_0_l.
  set (K := Rabs C + Rabs C' + 1). assert (KP : 1 <= K) by (unfold K; generalize (Rabs_pos C) (Rabs_pos C'); lra).
  set (TT := Rabs T + 1). assert (TP : 1 <= TT) by (unfold TT; generalize (Rabs_pos T); lra).
  assert (exists N1, Rmax TT (K * TT / eps) < INR N1) as [N1 HN1] by (destruct (nfloor_ex (Rmax TT (K * TT / eps)) ltac:(eapply Rle_trans; [|apply Rmax_l]; lra)) as [m Hm]; exists (S m); rewrite S_INR; lra).
  set (N := Nat.max (Nat.max N0 N1) 1). assert (NN1 : (N1 <= N)%nat) by (unfold N; lia). apply le_INR in NN1.
  assert (A1 := Rmax_l TT (K * TT / eps)). assert (A2 := Rmax_r TT (K * TT / eps)).
  set (h := Rabs T / INR N). assert (Np : 0 < INR N) by lra.
  assert (H0 : 0 <= h) by (unfold h; apply Rmult_le_pos; [apply Rabs_pos|left; apply Rinv_0_lt_compat; exact Np]).
  assert (TTN : Rabs T < TT) by (unfold TT; lra).
  assert (h1 : h <= 1) by (unfold h; apply Rmult_le_reg_r with (INR N); [exact Np|]; unfold Rdiv; rewrite Rmult_assoc, Rinv_l by lra; lra).
  assert (hK : K * h <= eps).
  { unfold h. apply Rmult_le_reg_r with (INR N); [exact Np|]. replace (K * (Rabs T / INR N) * INR N) with (K * Rabs T) by (field; lra).
    assert (B : K * TT <= eps * INR N). { apply Rmult_le_reg_r with (/ eps); [apply Rinv_0_lt_compat; exact He|]. replace (eps * INR N * / eps) with (INR N) by (field; lra). change (K * TT * / eps) with (K * TT / eps). lra. }
    eapply Rle_trans; [|exact B]. apply Rmult_le_compat_l; lra. }
  assert (hn : h ^ n <= h). { destruct n as [|n]; [lia|]. cbn [pow]. rewrite <- (Rmult_1_r h) at 3. apply Rmult_le_compat_l; [exact H0|]. replace 1 with (1 ^ n) by apply pow1. apply pow_incr. lra. }
  assert (P0 : 0 <= h ^ n) by (apply pow_le; exact H0).
  destruct (H N ltac:(unfold N; lia)) as (a & B1 & B2). fold h in B1, B2.
  assert (C1 : C * h ^ n <= Rabs C * h) by (eapply Rle_trans; [apply Rmult_le_compat_r; [exact P0|apply Rle_abs]|apply Rmult_le_compat_l; [apply Rabs_pos|exact hn]]).
  assert (C2 : C' * h ^ n <= Rabs C' * h) by (eapply Rle_trans; [apply Rmult_le_compat_r; [exact P0|apply Rle_abs]|apply Rmult_le_compat_l; [apply Rabs_pos|exact hn]]).
  replace (x - y) with ((a - y) - (a - x)) by ring. unfold Rminus at 1. eapply Rle_trans; [apply Rabs_triang|]. rewrite Rabs_Ropp.
  unfold K in hK. lra.
Qed.

Lemma solution_unique n es y y' t0 t : system n es -> (forall i, (i < n)%nat -> y t0 i = y' t0 i) ->
  (forall u, Rmin t0 t <= u <= Rmax t0 t -> (defined_for n es u (y u) /\ solves_near n (program_rhs es) y u) /\ (defined_for n es u (y' u) /\ solves_near n (program_rhs es) y' u)) ->
  forall i, (i < n)%nat -> y t i = y' t i.
Proof.
  intros Hs H0 H i Hi. destruct (Req_dec t t0) as [-> |Ht]; [apply H0; exact Hi|].
  set (y2 := fun u j => if Nat.ltb j n then y' u j else y t0 j).
  assert (E2 : y2 t0 = y t0).
  { apply FunctionalExtensionality.functional_extensionality. intros j. unfold y2. destruct (Nat.ltb_spec j n) as [Hj|]; [symmetry; apply H0; exact Hj|reflexivity]. }
  assert (Y2 : forall u j, (j < n)%nat -> y2 u j = y' u j) by (intros u j Hj; unfold y2; destruct (Nat.ltb_spec j n); [reflexivity|lia]).
  assert (HT : t - t0 <> 0) by lra. assert (ET : t0 + (t - t0) = t) by ring.
  destruct (program_converges n es y t0 (t - t0) Hs HT) as (C & N0 & HN0 & Q).
  { rewrite ET. intros u Hu. apply (H u Hu). }
  destruct (program_converges n es y2 t0 (t - t0) Hs HT) as (C' & N1 & HN1 & Q').
  { rewrite ET. intros u Hu. destruct (H u Hu) as [_ [D (r & Hr & Sol)]]. split.
    - intros j Hj. apply (defined_ext_b (S n) (es j) (point u (y' u))); [apply Hs; exact Hj| |apply D; exact Hj]. intros [|k] Hk; [reflexivity|]. cbn [point]. symmetry. apply Y2. lia.
    - exists r. split; [exact Hr|]. intros v j Hv Hj. apply (is_derive_ext (fun w => y' w j)); [intros w; symmetry; apply Y2; exact Hj|].
      assert (D' := Sol v j Hv Hj). replace (program_rhs es v (y2 v) j) with (program_rhs es v (y' v) j); [exact D'|]. apply (program_reads n es Hs); [|exact Hj]. intros k Hk. symmetry. apply Y2. exact Hk. }
  rewrite E2 in Q'. rewrite <- (Y2 t i Hi).
  apply (same_limit (y t i) (y2 t i) C C' (t - t0) 4 (Nat.max N0 N1)); [lia|].
  intros N HN. assert (Np : 0 < INR N) by (apply lt_0_INR; lia).
  destruct (Q N t N i ltac:(lia) (le_n N) Hi) as [_ A]. destruct (Q' N t N i ltac:(lia) (le_n N) Hi) as [_ B].
  replace (t0 + INR N * ((t - t0) / INR N)) with t in A, B by (field; lra). eexists. split; [exact A|exact B].
Qed.
(** existence, uniqueness and RK4naive *)
Theorem ivp_rk4 n es t0 y0 : system n es -> defined_for n es t0 y0 ->
  exists T y, 0 < T /\ y t0 = y0 /\ (forall t, Rabs (t - t0) <= T -> defined_for n es t (y t) /\ solves_near n (program_rhs es) y t) /\
  (forall y', y' t0 = y0 -> (forall t, Rabs (t - t0) <= T -> defined_for n es t (y' t) /\ solves_near n (program_rhs es) y' t) -> forall t i, Rabs (t - t0) <= T -> (i < n)%nat -> y' t i = y t i) /\
  forall U, U <> 0 -> Rabs U <= T -> exists C N0, (0 < N0)%nat /\ forall N tb k i, (N0 <= N)%nat -> (k <= N)%nat -> (i < n)%nat ->
    let st := rk4_steps k (rk4_init (program_rhs es) t0 y0 tb (U / INR N)) in
    rk_t st = t0 + INR k * (U / INR N) /\ Rabs (rk_y st i - y (t0 + INR k * (U / INR N)) i) <= C * (Rabs U / INR N) ^ 4.
Proof.
  intros Hs Hd. destruct (solution_exists n es t0 y0 Hs Hd) as (d & y & Hd' & E0 & H).
  assert (Hh : forall t, Rabs (t - t0) <= d / 2 -> Rabs (t - t0) < d) by (intros; lra).
  exists (d / 2), y. split; [lra|]. split; [exact E0|]. split; [intros t Ht; apply H, Hh, Ht|].
  assert (Bt : forall t u, Rabs (t - t0) <= d / 2 -> Rmin t0 t <= u <= Rmax t0 t -> Rabs (u - t0) <= d / 2).
  { intros t u Ht Hu. apply Rabs_le_between in Ht. apply Rabs_le. revert Hu. unfold Rmin, Rmax. destruct (Rle_dec t0 t); intros; lra. }
  split.
  - intros y' E' H' t i Ht Hi. apply (solution_unique n es y' y t0 t Hs); [intros j _; rewrite E', E0; reflexivity| |exact Hi]. intros u Hu. assert (Hu' := Bt t u Ht Hu). split; [apply H'; exact Hu'|apply H, Hh, Hu'].
  - intros T HT HTd. destruct (program_converges n es y t0 T Hs HT) as (C & N0 & HN0 & Q).
    { intros t Ht. apply H, Hh. apply (Bt (t0 + T) t); [|exact Ht]. replace (t0 + T - t0) with T by ring. exact HTd. }
    exists C, N0. split; [exact HN0|]. intros N tb k i HN Hk Hi. cbv zeta. rewrite <- E0. apply Q; assumption.
Qed.

(** *** geodesics *)
(** Hamilton's equations as a system of programs: variables 0-3 the position, 4-7 the momentum *)
Definition hamP (g : metricP) (i : nat) : pexpr :=
  if Nat.ltb i 4 then sum4E (fun c => EMul (mnth g i c) (EVar (4 + c)))
  else ENeg (EMul (EConst (/ 2)) (sum4E (fun b => sum4E (fun c => EMul (EMul (pd (i - 4) (mnth g b c)) (EVar (4 + b))) (EVar (4 + c)))))).
Lemma sum4E_below N f : (forall k, (k < 4)%nat -> below N (f k) = true) -> below N (sum4E f) = true.
Proof. intros H. unfold sum4E. cbn [below]. rewrite !H by lia. reflexivity. Qed.
Lemma below_up e : below 4 e = true -> below 8 e = true.
Proof. intros H. apply (FantasyOrder2.below_le 4); [lia|exact H]. Qed.
Lemma hamP_below g : well_formed g -> forall i, (i < 8)%nat -> below 8 (hamP g i) = true.
Proof.
  intros Hw i Hi. unfold hamP. destruct (Nat.ltb_spec i 4).
  - apply sum4E_below. intros c Hc. cbn [below]. rewrite (below_up _ (below4 g Hw i c H Hc)). apply Nat.ltb_lt. lia.
  - cbn [below]. apply sum4E_below. intros b Hb. apply sum4E_below. intros c Hc. cbn [below]. rewrite (pd_below _ _ _ (below_up _ (below4 g Hw b c Hb Hc))). cbn [andb]. apply andb_true_intro. split; apply Nat.ltb_lt; lia.
Qed.
Lemma hamP_defined g z : metric_defined g z -> forall i, (i < 8)%nat -> defined_at z (hamP g i).
Proof.
  intros Hd i Hi. unfold hamP. destruct (Nat.ltb_spec i 4).
  - apply sum4_defined. intros c Hc. split; [apply Hd; assumption|exact I].
  - cbn [defined_at]. split; [exact I|]. apply sum4_defined. intros b Hb. apply sum4_defined. intros c Hc. split; [split; [apply pd_defined; apply Hd; assumption|exact I]|exact I].
Qed.
Lemma Ham_partial' g x p k : well_formed g -> metric_defined g (q4nth x) -> (k < 4)%nat ->
  is_derive (fun z => Ham g (vupd x k z) p) (q4nth x k) (/ 2 * sum4 (fun b => sum4 (fun c => meaning (q4nth x) (pd k (mnth g b c)) * q4nth p b * q4nth p c))).
Proof.
  intros Hw Hdef K.
  eapply D_ext; [intros z; symmetry; apply Ham_sum|]. apply D_scal. apply D_sum4. intros b Hb. apply D_sum4. intros c Hc.
  assert (P := pd_partial 4 (mnth g b c) (q4nth x) k (below4 g Hw b c Hb Hc) (Hdef b c Hb Hc) K).
  eapply D_eq; [eapply D_ext; [|apply (D_scal _ _ (q4nth p b * q4nth p c) _ P)]|ring].
  intros z. cbv beta. replace (meaning (GeoUtilsSpec.upd (q4nth x) k z) (mnth g b c)) with (meaning (q4nth (vupd x k z)) (mnth g b c)); [ring|].
  apply (meaning_ext_b 4 _ _ _ (below4 g Hw b c Hb Hc)). intros i Hi. apply vupd_nth. exact Hi.
Qed.
Theorem geodesic_exists g q0 p0 : well_formed g -> metric_defined g (q4nth q0) ->
  exists d q p, 0 < d /\ q 0 = q0 /\ p 0 = p0 /\ forall t, Rabs t < d -> metric_defined g (q4nth (q t)) /\ hamilton g q p t.
Proof.
  intros Hw Hd. destruct (picard_programs 8 (hamP g) (join q0 p0) (hamP_below g Hw)) as (d & y & Hd' & E0 & H).
  { apply hamP_defined. apply (metric_defined_ext g (q4nth q0)); [exact Hw| |exact Hd]. intros i Hi. nat4 i Hi; reflexivity. }
  exists d, (fun t => pos (y t)), (fun t => vel (y t)). split; [exact Hd'|].
  split; [rewrite <- (pos_join q0 p0); apply q4_ext; intros k K; unfold pos; rewrite !q4nth_tab' by exact K; apply E0; lia|].
  split; [rewrite <- (vel_join q0 p0); apply q4_ext; intros k K; unfold vel; rewrite !q4nth_tab' by exact K; apply E0; lia|].
  intros t Ht. assert (MD : metric_defined g (q4nth (pos (y t)))).
  { apply (metric_defined_ext g (y t)); [exact Hw|intros i Hi; unfold pos; rewrite q4nth_tab' by exact Hi; reflexivity|]. intros i j Hi Hj.
    destruct (H t Ht i ltac:(lia)) as [A _]. unfold hamP in A. destruct (Nat.ltb_spec i 4); [|lia]. unfold sum4E in A. cbn [defined_at] in A. nat4 j Hj; apply A. }
  split; [exact MD|]. intros k K.
  assert (EM : forall e, below 4 e = true -> meaning (y t) e = meaning (q4nth (pos (y t))) e).
  { intros e He. apply (meaning_ext_b 4 _ _ _ He). intros i Hi. unfold pos. rewrite q4nth_tab' by exact Hi. reflexivity. }
  assert (EV : forall b, (b < 4)%nat -> y t (4 + b)%nat = q4nth (vel (y t)) b) by (intros b Hb; unfold vel; rewrite q4nth_tab' by exact Hb; reflexivity).
  split.
  - destruct (H t Ht k ltac:(lia)) as [_ A]. apply (is_derive_ext (fun u => y u k)); [intros u; unfold pos; rewrite q4nth_tab' by exact K; reflexivity|].
    eapply D_eq; [exact A|]. rewrite mv_sum by exact K. unfold hamP. destruct (Nat.ltb_spec k 4); [|lia]. rewrite sum4_meaning. apply sum4_ext. intros c Hc. cbn [meaning]. rewrite (EM _ (below4 g Hw k c K Hc)), (EV c Hc). reflexivity.
  - eexists. split; [apply Ham_partial'; [exact Hw|exact MD|exact K]|].
    destruct (H t Ht (4 + k)%nat ltac:(lia)) as [_ A]. apply (is_derive_ext (fun u => y u (4 + k)%nat)); [intros u; unfold vel; rewrite q4nth_tab' by exact K; reflexivity|].
    eapply D_eq; [exact A|]. unfold hamP. destruct (Nat.ltb_spec (4 + k) 4); [lia|]. replace (4 + k - 4)%nat with k by lia. cbn [meaning]. rewrite sum4_meaning. f_equal. f_equal. apply sum4_ext. intros b Hb. rewrite sum4_meaning. apply sum4_ext. intros c Hc.
    cbn [meaning]. rewrite (EM _ (pd_below _ _ _ (below4 g Hw b c Hb Hc))), (EV b Hb), (EV c Hc). reflexivity.
Qed.
Theorem geodesic_unique g q p q' p' T : well_formed g -> symmetric_program g -> geodesic_on g q p T -> geodesic_on g q' p' T -> q 0 = q' 0 -> p 0 = p' 0 ->
  forall t, 0 <= t <= T -> q t = q' t /\ p t = p' t.
Proof.
  intros Hw Hs G1 G2 Eq Ep t Ht. destruct (Req_dec t 0) as [-> |Hn]; [split; assumption|].
  assert (G1' : geodesic_on g q p t) by (intros u Hu; apply G1; lra). assert (G2' : geodesic_on g q' p' t) by (intros u Hu; apply G2; lra).
  assert (Hf : exists f, integrator_of 2 (metricfun_of g) 1 = Ok f) by (eexists; reflexivity). destruct Hf as [f Hf].
  destruct (trajectory_converges 2 g 1 f 2 q p t Hf (or_introl eq_refl) Hw Hs ltac:(lra) G1') as (C & N0 & HN0 & Q).
  destruct (trajectory_converges 2 g 1 f 2 q' p' t Hf (or_introl eq_refl) Hw Hs ltac:(lra) G2') as (C' & N1 & HN1 & Q').
  assert (Key : forall N, (Nat.max N0 N1 <= N)%nat -> exists row, forall i, (i < 4)%nat ->
     (Rabs (q4nth (fst row) i - q4nth (q t) i) <= C * (Rabs t / INR N) ^ 2 /\ Rabs (q4nth (fst row) i - q4nth (q' t) i) <= C' * (Rabs t / INR N) ^ 2) /\
     (Rabs (q4nth (snd row) i - q4nth (p t) i) <= C * (Rabs t / INR N) ^ 2 /\ Rabs (q4nth (snd row) i - q4nth (p' t) i) <= C' * (Rabs t / INR N) ^ 2)).
  { intros N HN. destruct (Q N false 0 0 true ltac:(lia)) as (rows & E & Hl & R1). destruct (Q' N false 0 0 true ltac:(lia)) as (rows' & E' & _ & R2).
    rewrite <- Eq, <- Ep, E in E'. apply Ok_inj in E'. injection E' as <-.
    assert (Np : 0 < INR N) by (apply lt_0_INR; lia). assert (Et : INR (S (N - 1)) * (t / INR N) = t) by (replace (S (N - 1)) with N by lia; field; lra).
    destruct (nth_error rows (N - 1)) as [row|] eqn:Er; [|apply nth_error_None in Er; lia]. exists row. intros i Hi.
    destruct (R1 _ _ Er i Hi) as [A1 A2]. destruct (R2 _ _ Er i Hi) as [B1 B2]. rewrite Et in A1, A2, B1, B2. rewrite (Rabs_right t) by lra. tauto. }
  split; apply q4_ext; intros i Hi.
  - apply (same_limit _ _ C C' t 2 (Nat.max N0 N1) ltac:(lia)). intros N HN. destruct (Key N HN) as [row K]. exists (q4nth (fst row) i). apply (K i Hi).
  - apply (same_limit _ _ C C' t 2 (Nat.max N0 N1) ltac:(lia)). intros N HN. destruct (Key N HN) as [row K]. exists (q4nth (snd row) i). apply (K i Hi).
Qed.
(** Geodesic on every initial value problem *)
Theorem geodesic_solved g q0 p0 : well_formed g -> symmetric_program g -> metric_defined g (q4nth q0) ->
  exists T q p, 0 < T /\ q 0 = q0 /\ p 0 = p0 /\ geodesic_on g q p T /\
  (forall q' p', geodesic_on g q' p' T -> q' 0 = q0 -> p' 0 = p0 -> forall t, 0 <= t <= T -> q' t = q t /\ p' t = p t) /\
  forall U order w f n, 0 < U <= T -> integrator_of order (metricfun_of g) w = Ok f -> n = 2%nat \/ (order = 4 /\ n = 4)%nat ->
  exists C N0, (0 < N0)%nat /\ forall N tl rtol atol suppress, (N0 <= N)%nat ->
  exists rows, calculate_trajectory g q0 p0 tl false (mkkw N (U / INR N) rtol atol order w suppress) = Ok (seq 0 N, rows) /\ length rows = N /\
  forall k row, nth_error rows k = Some row -> forall i, (i < 4)%nat ->
    Rabs (q4nth (fst row) i - q4nth (q (INR (S k) * (U / INR N))) i) <= C * (U / INR N) ^ n /\
    Rabs (q4nth (snd row) i - q4nth (p (INR (S k) * (U / INR N))) i) <= C * (U / INR N) ^ n.
Proof.
  intros Hw Hs Hd. destruct (geodesic_exists g q0 p0 Hw Hd) as (d & q & p & Hd' & E1 & E2 & H).
  assert (GO : geodesic_on g q p (d / 2)).
  { intros t Ht. assert (Ht' : Rabs t < d) by (rewrite Rabs_right; lra). split; [apply H; exact Ht'|].
    assert (P : 0 < d - Rabs t) by lra. exists (mkposreal _ P). intros u Hu. apply of_ball in Hu. cbn [pos] in Hu. apply H. replace u with (t + (u - t)) by ring. eapply Rle_lt_trans; [apply Rabs_triang|]. cbn in Hu. lra. }
  exists (d / 2), q, p. split; [lra|]. split; [exact E1|]. split; [exact E2|]. split; [exact GO|]. split.
  - intros q' p' G' F1 F2 t Ht. apply (geodesic_unique g q' p' q p (d / 2)); try assumption; congruence.
  - intros U order w f n HU Hf Hn. rewrite <- E1, <- E2. apply (trajectory_converges order g w f n q p U Hf Hn Hw Hs ltac:(lra)). intros t Ht. apply GO. lra.
Qed.

(** *** motions *)
Lemma kn_defined_iff c G Cc o x v : 0 < c -> 0 < G -> 0 < Cc -> mo_sys o = BL -> valid_spin o ->
  (exists y, kn_f_vec c G Cc o x v = Ok y) <-> bl_dom c G o x /\ sin (c2 x) <> 0.
Proof.
  intros Hc HG HC Hsys Hspin. split.
  - intros [y E]. assert (Hc' : c <> 0) by lra. apply (kn_christoffels_defined c G Cc o x Hc'). unfold kn_f_vec in E. rewrite Hsys in E. apply bindR_Ok in E. destruct E as [ch [E _]]. exists ch. exact E.
  - intros [D Hs]. destruct (kn_f_vec_defined c G Cc o x v Hc HG HC D Hs) as [y E]. exists y. exact E.
Qed.
Lemma kn_velocity c G Cc o x v w a : kn_f_vec c G Cc o x v = Ok (w, a) -> w = v.
Proof.
  unfold kn_f_vec. destruct (mo_sys o); try discriminate. intros E. apply bindR_Ok in E. destruct E as [ch [_ E]]. apply bindR_Ok in E. destruct E as [F [_ E]]. apply bindR_Ok in E. destruct E as [g [_ E]]. apply Ok_inj in E. congruence.
Qed.
Lemma join_lo x v i : (i < 4)%nat -> join x v i = q4nth x i.
Proof. intros H. unfold join. destruct (Nat.ltb_spec i 4); [reflexivity|lia]. Qed.
Lemma join_hi x v i : join x v (4 + i)%nat = q4nth v i.
Proof. unfold join. destruct (Nat.ltb_spec (4 + i) 4); [lia|]. f_equal. lia. Qed.
Theorem kn_motion_exists c G Cc o x v y0 : 0 < c -> 0 < G -> 0 < Cc -> mo_sys o = BL -> valid_spin o -> q_val (mo_q o) = 0 -> kn_f_vec c G Cc o x v = Ok y0 ->
  exists T X W, 0 < T /\ X 0 = x /\ W 0 = v /\ forall t, Rabs t <= T -> locally t (moves (kn_f_vec c G Cc o) X W).
Proof.
  intros Hc HG HC Hsys Hspin Hq E.
  assert (D0 := proj1 (kn_defined_iff c G Cc o x v Hc HG HC Hsys Hspin) (ex_intro _ y0 E)).
  set (es := knP c G o).
  assert (Hdef : defined_for 8 es 0 (join x v)). { apply (motion_defined c G o Hc). apply (ok_dom c G o Hsys Hspin). rewrite pos_join. exact D0. }
  destruct (solution_exists 8 es 0 (join x v) (knP_system c G o) Hdef) as (d & y & Hd & E0 & H).
  assert (Mv : forall t, Rabs t < d -> moves (kn_f_vec c G Cc o) (fun u => pos (y u)) (fun u => vel (y u)) t).
  { intros t Ht. destruct (H t ltac:(rewrite Rminus_0_r; exact Ht)) as [Dt (r & Hr & Sol)].
    assert (OK := defined_ok c G o t (y t) Dt). apply (ok_dom c G o Hsys Hspin) in OK.
    destruct (proj2 (kn_defined_iff c G Cc o (pos (y t)) (vel (y t)) Hc HG HC Hsys Hspin) OK) as [[w a] Ef].
    assert (Ew := kn_velocity _ _ _ _ _ _ _ _ Ef). subst w.
    assert (R : forall i, (i < 8)%nat -> is_derive (fun u => y u i) t (join (vel (y t)) a i)).
    { intros i Hi. assert (A := Sol t i ltac:(rewrite Rminus_eq_0, Rabs_R0; exact Hr) Hi). change (program_rhs es t (y t) i) with (program_rhs (knP c G o) t (y t) i) in A. rewrite <- (kn_implements c G Cc o Hc HG HC Hsys Hspin Hq t (y t) Dt i Hi) in A. unfold motion_rhs in A. rewrite Ef in A. exact A. }
    exists a. split; [|split; [exact Ef|]].
    - intros k K. apply (is_derive_ext (fun u => y u k)); [intros u; unfold pos; rewrite q4nth_tab' by exact K; reflexivity|]. assert (A := R k ltac:(lia)). rewrite join_lo in A by exact K. exact A.
    - intros k K. apply (is_derive_ext (fun u => y u (4 + k)%nat)); [intros u; unfold vel; rewrite q4nth_tab' by exact K; reflexivity|]. assert (A := R (4 + k)%nat ltac:(lia)). rewrite join_hi in A. exact A. }
  exists (d / 2), (fun t => pos (y t)), (fun t => vel (y t)). split; [lra|]. split; [rewrite E0; apply pos_join|]. split; [rewrite E0; apply vel_join|].
  intros t Ht. assert (P : 0 < d / 2) by lra. exists (mkposreal _ P). intros u Hu. apply of_ball in Hu. cbn in Hu. apply Mv. replace u with (t + (u - t)) by ring. eapply Rle_lt_trans; [apply Rabs_triang|]. lra.
Qed.
Theorem kn_motion_unique c G Cc o X W X' W' t : 0 < c -> 0 < G -> 0 < Cc -> mo_sys o = BL -> valid_spin o -> q_val (mo_q o) = 0 -> X 0 = X' 0 -> W 0 = W' 0 ->
  (forall u, Rmin 0 t <= u <= Rmax 0 t -> locally u (moves (kn_f_vec c G Cc o) X W) /\ locally u (moves (kn_f_vec c G Cc o) X' W')) -> X t = X' t /\ W t = W' t.
Proof.
  intros Hc HG HC Hsys Hspin Hq E1 E2 H. destruct (Req_dec t 0) as [-> |Hn]; [split; assumption|].
  destruct (kn_rk4' c G Cc o X W t Hc HG HC Hsys Hspin Hq Hn (fun u Hu => proj1 (H u Hu))) as (C & N0 & HN0 & Q).
  destruct (kn_rk4' c G Cc o X' W' t Hc HG HC Hsys Hspin Hq Hn (fun u Hu => proj2 (H u Hu))) as (C' & N1 & HN1 & Q').
  rewrite <- E1, <- E2 in Q'.
  assert (K : forall i, (i < 4)%nat -> q4nth (X t) i = q4nth (X' t) i /\ q4nth (W t) i = q4nth (W' t) i).
  { intros i Hi. split; apply (same_limit _ _ C C' t 4 (Nat.max N0 N1) ltac:(lia)); intros N HN; assert (Np : 0 < INR N) by (apply lt_0_INR; lia);
    destruct (Q N t N i ltac:(lia) (le_n N) Hi) as (_ & A1 & A2); destruct (Q' N t N i ltac:(lia) (le_n N) Hi) as (_ & B1 & B2);
    replace (INR N * (t / INR N)) with t in A1, A2, B1, B2 by (field; lra); eexists; split; [exact A1|exact B1|exact A2|exact B2]. }
  split; apply q4_ext; intros i Hi; apply (K i Hi).
Qed.
Theorem sch_motion_exists c G o x v y0 : 0 < c -> 0 < G -> mo_sys o = Sph -> sch_f_vec c G o x v = Ok y0 ->
  exists T X W, 0 < T /\ X 0 = x /\ W 0 = v /\ forall t, Rabs t <= T -> locally t (moves (sch_f_vec c G o) X W).
Proof.
  intros Hc HG S E. apply (sch_as_kn c G o x v y0 Hc HG S) in E.
  destruct (kn_motion_exists c G 1 (as_kn o) x v y0 Hc HG Rlt_0_1 eq_refl (as_kn_spin o) eq_refl E) as (T & X & W & HT & E1 & E2 & H).
  exists T, X, W. split; [exact HT|]. split; [exact E1|]. split; [exact E2|]. intros t Ht. generalize (H t Ht). apply filter_imp. intros u Hu. apply (sch_moves c G o X W u Hc HG S). exact Hu.
Qed.
Theorem sch_motion_unique c G o X W X' W' t : 0 < c -> 0 < G -> mo_sys o = Sph -> X 0 = X' 0 -> W 0 = W' 0 ->
  (forall u, Rmin 0 t <= u <= Rmax 0 t -> locally u (moves (sch_f_vec c G o) X W) /\ locally u (moves (sch_f_vec c G o) X' W')) -> X t = X' t /\ W t = W' t.
Proof.
  intros Hc HG S E1 E2 H. apply (kn_motion_unique c G 1 (as_kn o) X W X' W' t Hc HG Rlt_0_1 eq_refl (as_kn_spin o) eq_refl E1 E2).
  intros u Hu. destruct (H u Hu) as [A B]. split; [generalize A|generalize B]; apply filter_imp; intros s Hs; apply (sch_moves c G o _ _ s Hc HG S); exact Hs.
Qed.
