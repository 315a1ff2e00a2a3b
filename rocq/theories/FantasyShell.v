(** The mass shell along computed trajectories: 1/2 g^ij p_i p_j is constant along an exact geodesic, so along the rows returned by
    calculate_trajectory it drifts by no more than the error of the integrator. *)
From Coq Require Import String Reals List ZArith Lra Lia Bool.
From Coquelicot Require Import Coquelicot.
From Verif Require Import Base Calc DualModel DualSpec DualProofs DualDiff GeoUtilsModel GeoUtilsSpec GeoUtilsProofs GeodesicModel GeodesicProofs
  FantasyModel FantasyProofs FantasyProofs2 FantasyProofs3 FantasyHam FantasySymp ProgCont WordSeries WordOrder FantasyOrder FantasyOrder2 FantasyOrder3 FantasyOrder4 FantasyGlobal FantasyGlobal2 FantasyGlobal3.
Import ListNotations.
Open Scope R_scope.

Definition shellE (g : metricP) : pexpr := hamE g 0 4.
Definition pt8 (q p : V4) (i : nat) : R := if Nat.ltb i 4 then q4nth q i else if Nat.ltb i 8 then q4nth p (i - 4) else 0.
Lemma shell_below g : well_formed g -> below 16 (shellE g) = true.
Proof. intros H. apply hamE_below; [exact H|lia|lia]. Qed.
Lemma Ham_shell g q p : well_formed g -> Ham g q p = meaning (pt8 q p) (shellE g).
Proof.
  intros H. unfold shellE. rewrite hamE_meaning. unfold Ham. f_equal. rewrite (metric_meaning_ext g (fun i => pt8 q p (0 + i)) (q4nth q) H).
  - f_equal. destruct p as [p0 p1 p2 p3]. reflexivity.
  - intros i Hi. unfold pt8. cbn [Nat.add]. destruct (Nat.ltb_spec i 4); [reflexivity|lia].
Qed.
Lemma shell_defined g q p : well_formed g -> metric_defined g (q4nth q) -> defined_at (pt8 q p) (shellE g).
Proof.
  intros H D. apply hamE_defined. apply (metric_defined_ext g (q4nth q)); [exact H| |exact D]. intros i Hi. unfold pt8. cbn [Nat.add]. destruct (Nat.ltb_spec i 4); [reflexivity|lia].
Qed.
Lemma shell_derivative g q p t : well_formed g -> symmetric_program g -> metric_defined g (q4nth (q t)) -> hamilton g q p t ->
  is_derive (fun u => Ham g (q u) (p u)) t 0.
Proof.
  intros Hwf Hsym Hd Hh.
  destruct (ham_parts g (q t) (p t) Hwf Hsym Hd) as (grad & _ & _ & HP).
  destruct (HP (pt8 (q t) (p t)) 0%nat 4%nat) as [_ HQ]; [intros i Hi; unfold pt8; cbn [Nat.add]; destruct (Nat.ltb_spec i 4); [reflexivity|lia]| |lia|lia|lia|].
  { intros i Hi. unfold pt8. destruct (Nat.ltb_spec (4 + i) 4); [lia|]. destruct (Nat.ltb_spec (4 + i) 8); [|lia]. f_equal. lia. }
  fold (shellE g) in HQ. set (x := pt8 (q t) (p t)) in *. set (e := shellE g) in *.
  assert (xdot : exists v : nat -> R, (forall i, (i < 16)%nat -> is_derive (fun u => pt8 (q u) (p u) i) t (v i)) /\ forall k, (k < 4)%nat -> v k = meaning x (pd (4 + k) e) /\ v (4 + k)%nat = - meaning x (pd k e)).
  { exists (fun i => if Nat.ltb i 4 then meaning x (pd (4 + i) e) else if Nat.ltb i 8 then - meaning x (pd (i - 4) e) else 0). split.
    - intros i Hi. destruct (Nat.ltb_spec i 4) as [L|L].
      + destruct (Hh i L) as [A _]. destruct (HQ i L) as [_ B]. rewrite <- B. eapply D_ext; [|exact A]. intros u. unfold pt8. destruct (Nat.ltb_spec i 4); [reflexivity|lia].
      + destruct (Nat.ltb_spec i 8) as [L2|L2].
        * destruct (Hh (i - 4)%nat ltac:(lia)) as [_ (D & D1 & D2)]. replace (meaning x (pd (i - 4) e)) with D.
          { eapply D_ext; [|exact D2]. intros u. unfold pt8. destruct (Nat.ltb_spec i 4); [lia|]. destruct (Nat.ltb_spec i 8); [reflexivity|lia]. }
          assert (P := pd_partial 16 e x (i - 4)%nat (shell_below g Hwf) (shell_defined g _ _ Hwf Hd) ltac:(lia)).
          assert (Q : is_derive (fun s => meaning (upd x (i - 4) s) e) (x (i - 4)%nat) D).
          { assert (X : x (i - 4)%nat = q4nth (q t) (i - 4)) by (unfold x, pt8; destruct (Nat.ltb_spec (i - 4) 4); [reflexivity|lia]). rewrite X. eapply D_ext; [|exact D1]. intros s. cbv beta. rewrite (Ham_shell g _ _ Hwf).
            apply (meaning_ext_b 16 _ _ _ (shell_below g Hwf)). intros j Hj. unfold x, pt8, upd. destruct (Nat.ltb_spec j 4) as [M|M].
            - rewrite vupd_nth by exact M. unfold upd. reflexivity.
            - destruct (Nat.eqb_spec j (i - 4)); [lia|reflexivity]. }
          rewrite <- (is_derive_unique _ _ _ Q). apply is_derive_unique. exact P.
        * apply (D_ext (fun _ => 0)); [|apply D_const]. intros u. unfold pt8. destruct (Nat.ltb_spec i 4); [lia|]. destruct (Nat.ltb_spec i 8); [lia|reflexivity].
    - intros k Hk. destruct (Nat.ltb_spec k 4); [|lia]. destruct (Nat.ltb_spec (4 + k) 4); [lia|]. destruct (Nat.ltb_spec (4 + k) 8); [|lia]. replace (4 + k - 4)%nat with k by lia. split; reflexivity. }
  destruct xdot as (v & Hv & Hk).
  assert (P := pd_path 16 e (shell_below g Hwf) (fun i u => pt8 (q u) (p u) i) v t Hv (shell_defined g _ _ Hwf Hd)).
  eapply D_eq; [eapply D_ext; [|exact P]|].
  - intros u. cbv beta. symmetry. apply Ham_shell. exact Hwf.
  - transitivity (rsum 16 (fun k => v k * meaning x (pd k e))); [reflexivity|].
    assert (Z : forall k, (8 <= k < 16)%nat -> meaning x (pd k e) = 0). { intros k K. apply pd_unmentioned. apply hamE_mentions; [exact Hwf|lia|lia]. }
    cbn [rsum]. rewrite (Z 8%nat), (Z 9%nat), (Z 10%nat), (Z 11%nat), (Z 12%nat), (Z 13%nat), (Z 14%nat), (Z 15%nat) by lia.
    destruct (Hk 0%nat ltac:(lia)) as [A0 B0]. destruct (Hk 1%nat ltac:(lia)) as [A1 B1]. destruct (Hk 2%nat ltac:(lia)) as [A2 B2]. destruct (Hk 3%nat ltac:(lia)) as [A3 B3].
    cbn [Nat.add] in *. rewrite A0, A1, A2, A3, B0, B1, B2, B3. ring.
Qed.
(** the Hamiltonian is constant along an exact geodesic *)
Lemma shell_constant g q p T : well_formed g -> symmetric_program g -> geodesic_on g q p T -> forall t, 0 <= t <= T -> Ham g (q t) (p t) = Ham g (q 0) (p 0).
Proof.
  intros Hwf Hsym Hg t Ht.
  assert (D : forall u, 0 <= u <= T -> is_derive (fun v => Ham g (q v) (p v)) u 0).
  { intros u Hu. destruct (Hg u Hu) as [A B]. apply shell_derivative; [exact Hwf|exact Hsym|exact A|]. exact (locally_singleton _ _ B). }
  destruct (MVT_gen (fun v => Ham g (q v) (p v)) 0 t (fun _ => 0)) as (c & Hc & E).
  - intros u Hu. rewrite Rmin_left, Rmax_right in Hu by lra. apply D. lra.
  - intros u Hu. rewrite Rmin_left, Rmax_right in Hu by lra. apply continuity_pt_filterlim. eapply D_continuous. apply D. lra.
  - cbv beta in E. lra.
Qed.
(** uniform Lipschitz bound of the Hamiltonian around the geodesic *)
Definition shell_lip (g : metricP) (q p : R -> V4) (rho L t : R) : Prop := forall q' p' eps, eps < rho ->
  (forall i, (i < 4)%nat -> Rabs (q4nth q' i - q4nth (q t) i) <= eps /\ Rabs (q4nth p' i - q4nth (p t) i) <= eps) -> Rabs (Ham g q' p' - Ham g (q t) (p t)) <= L * eps.
Lemma pt8_within q p q' p' eps : (forall i, (i < 4)%nat -> Rabs (q4nth q' i - q4nth q i) <= eps /\ Rabs (q4nth p' i - q4nth p i) <= eps) ->
  forall i, (i < 16)%nat -> Rabs (pt8 q' p' i - pt8 q p i) <= eps.
Proof.
  intros H i Hi. unfold pt8. destruct (Nat.ltb_spec i 4) as [L|L]; [apply H; exact L|]. destruct (Nat.ltb_spec i 8) as [M|M]; [apply H; lia|].
  rewrite Rminus_eq_0, Rabs_R0. destruct (H 0%nat ltac:(lia)) as [Q _]. eapply Rle_trans; [apply Rabs_pos|exact Q].
Qed.
Lemma shell_compact g q p T : well_formed g -> 0 < T -> geodesic_on g q p T -> exists rho L, 0 < rho /\ 0 <= L /\ forall t, 0 <= t <= T -> shell_lip g q p rho L t.
Proof.
  intros Hwf HT Hg. apply (real_induction (fun x y => exists rho L, 0 < rho /\ 0 <= L /\ forall t, x <= t <= y -> shell_lip g q p rho L t) 0 T ltac:(lra)).
  - intros x y x' y' (rho & L & A & B & C) H1 H2. exists rho, L. split; [exact A|]. split; [exact B|]. intros t Ht. apply C. lra.
  - intros x y z Hy (rho & L & A & B & C) (rho' & L' & A' & B' & C'). exists (Rmin rho rho'), (Rmax L L'). split; [apply Rmin_pos; assumption|]. split; [eapply Rle_trans; [exact B|apply Rmax_l]|].
    intros t Ht q' p' eps He Hw. assert (E0 : 0 <= eps) by (destruct (Hw 0%nat ltac:(lia)) as [Q _]; eapply Rle_trans; [apply Rabs_pos|exact Q]).
    assert (M1 := Rmin_l rho rho'). assert (M2 := Rmin_r rho rho'). assert (M3 := Rmax_l L L'). assert (M4 := Rmax_r L L').
    destruct (Rle_dec t y) as [K|K].
    + eapply Rle_trans; [apply (C t ltac:(lra) q' p' eps ltac:(lra) Hw)|]. apply Rmult_le_compat_r; [exact E0|exact M3].
    + eapply Rle_trans; [apply (C' t ltac:(lra) q' p' eps ltac:(lra) Hw)|]. apply Rmult_le_compat_r; [exact E0|exact M4].
  - intros x Hx. destruct (Hg x Hx) as [Hd Hl]. destruct (prog_lip 16 (shellE g) (pt8 (q x) (p x)) (shell_below g Hwf) (shell_defined g _ _ Hwf Hd)) as (r & L & Hr & HL & H).
    assert (Cx : exists d, 0 < d /\ forall t, Rabs (t - x) < d -> forall i, (i < 4)%nat -> Rabs (q4nth (q t) i - q4nth (q x) i) < r / 2 /\ Rabs (q4nth (p t) i - q4nth (p x) i) < r / 2).
    { assert (S := locally_singleton _ _ Hl).
      assert (Q : forall m, (m <= 4)%nat -> exists d, 0 < d /\ forall t, Rabs (t - x) < d -> forall i, (i < m)%nat -> Rabs (q4nth (q t) i - q4nth (q x) i) < r / 2 /\ Rabs (q4nth (p t) i - q4nth (p x) i) < r / 2).
      { induction m as [|m IH]; intros Hm; [exists 1; split; [lra|]; intros; lia|]. destruct (IH ltac:(lia)) as (d & Hd' & K). destruct (S m ltac:(lia)) as [A (D & _ & B)]. apply D_continuous in A. apply D_continuous in B.
        assert (hr : 0 < r / 2) by lra.
        destruct (A (fun v => Rabs (v - q4nth (q x) m) < r / 2)) as [e1 E1]. { exists (mkposreal (r / 2) hr). intros v Hv. exact Hv. }
        destruct (B (fun v => Rabs (v - q4nth (p x) m) < r / 2)) as [e2 E2]. { exists (mkposreal (r / 2) hr). intros v Hv. exact Hv. }
        exists (Rmin d (Rmin e1 e2)). split; [repeat apply Rmin_pos; [exact Hd'|apply cond_pos|apply cond_pos]|]. intros t Ht i Hi.
        assert (M1 := Rmin_l d (Rmin e1 e2)). assert (M2 := Rmin_r d (Rmin e1 e2)). assert (M3 := Rmin_l e1 e2). assert (M4 := Rmin_r e1 e2).
        destruct (Nat.eq_dec i m) as [-> |]; [|apply K; [lra|lia]]. split; [apply E1|apply E2]; (eapply Rlt_le_trans; [exact Ht|lra]). }
      apply Q. lia. }
    destruct Cx as (d & Hd' & Cx). exists (d / 2). split; [lra|]. exists (r / 2), L. split; [lra|]. split; [exact HL|]. intros t Ht q' p' eps He Hw.
    rewrite !(Ham_shell g _ _ Hwf). assert (Kt := Cx t ltac:(apply Rabs_def1; lra)).
    assert (N1 : forall i, (i < 16)%nat -> Rabs (pt8 (q t) (p t) i - pt8 (q x) (p x) i) < r / 2).
    { intros i Hi. unfold pt8. destruct (Nat.ltb_spec i 4) as [M|M]; [apply Kt; exact M|]. destruct (Nat.ltb_spec i 8) as [M'|M']; [apply Kt; lia|]. rewrite Rminus_eq_0, Rabs_R0. lra. }
    assert (N2 := pt8_within (q t) (p t) q' p' eps Hw).
    apply H; [| |exact N2].
    + intros i Hi. replace (pt8 q' p' i - pt8 (q x) (p x) i) with ((pt8 q' p' i - pt8 (q t) (p t) i) + (pt8 (q t) (p t) i - pt8 (q x) (p x) i)) by ring. eapply Rle_lt_trans; [apply Rabs_triang|]. assert (A := N1 i Hi). assert (B := N2 i Hi). lra.
    + intros i Hi. assert (A := N1 i Hi). lra.
Qed.
Theorem mass_shell_drift order g w f n (q p : R -> V4) T :
  integrator_of order (metricfun_of g) w = Ok f -> n = 2%nat \/ (order = 4 /\ n = 4)%nat ->
  well_formed g -> symmetric_program g -> 0 < T -> geodesic_on g q p T ->
  exists C N0, (0 < N0)%nat /\ forall N tl rtol atol suppress, (N0 <= N)%nat ->
  exists rows, calculate_trajectory g (q 0) (p 0) tl false (mkkw N (T / INR N) rtol atol order w suppress) = Ok (seq 0 N, rows) /\ length rows = N /\
  forall row, In row rows -> Rabs (Ham g (fst row) (snd row) - Ham g (q 0) (p 0)) <= C * (T / INR N) ^ n.
Proof.
  intros Hf Hn Hwf Hsym HT Hg. destruct (trajectory_converges order g w f n q p T Hf Hn Hwf Hsym HT Hg) as (C & N0 & HN0 & H).
  destruct (shell_compact g q p T Hwf HT Hg) as (rho & L & Hr & HL & HS).
  assert (n0 : (0 < n)%nat) by (destruct Hn as [-> |[_ ->]]; lia).
  destruct (small_steps T (Rabs C) rho n HT (Rabs_pos C) Hr n0) as (N1 & HN1 & K).
  exists (L * Rabs C), (Nat.max N0 N1). split; [lia|]. intros N tl rtol atol suppress HN. destruct (H N tl rtol atol suppress ltac:(lia)) as (rows & E & Hlen & Hrow). exists rows. split; [exact E|]. split; [exact Hlen|].
  intros row Hin. apply In_nth_error in Hin as (k & Hk). destruct (K N ltac:(lia)) as [_ K2].
  assert (kN : (k < N)%nat) by (rewrite <- Hlen; apply nth_error_Some; rewrite Hk; discriminate).
  set (h := T / INR N) in *. set (t := INR (S k) * h).
  assert (PN : 0 < INR N) by (apply lt_0_INR; lia). assert (Hh : 0 < h) by (apply Rdiv_lt_0_compat; assumption).
  assert (Ht : 0 <= t <= T). { unfold t. split; [apply Rmult_le_pos; [apply pos_INR|lra]|]. assert (Q : INR (S k) <= INR N) by (apply le_INR; lia). replace T with (INR N * h) by (unfold h; field; lra). apply Rmult_le_compat_r; lra. }
  rewrite <- (shell_constant g q p T Hwf Hsym Hg t Ht).
  assert (B : C * h ^ n <= Rabs C * h ^ n) by (apply Rmult_le_compat_r; [apply pow_le; lra|apply Rle_abs]).
  rewrite Rmult_assoc. apply (HS t Ht); [exact K2|]. intros i Hi. destruct (Hrow k row Hk i Hi) as [A1 A2]. fold t in A1, A2. split; lra.
Qed.
