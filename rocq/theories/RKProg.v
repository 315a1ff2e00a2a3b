(** RK4naive on right-hand sides given by arithmetic programs: smoothness of the right-hand side and of its solutions is automatic. *)
From Coq Require Import Reals List ZArith Lra Lia Bool.
From Coquelicot Require Import Coquelicot.
From Verif Require Import Base Calc DualModel DualSpec DualProofs DualDiff GeoUtilsSpec GeoUtilsProofs ProgCont RKModel RKProofs FantasyHam FantasyOrder FantasyGlobal FantasyGlobal2 FantasyGlobal3 RKOrder RKOrder2 RKGlobal RKGlobal2.
Open Scope R_scope.

(** component i of the right-hand side is the program [es i] in the variables t (number 0) and y_j (number j + 1) *)
Definition program_rhs (es : nat -> pexpr) (t : R) (y : Y) : Y := fun i => meaning (point t y) (es i).
Definition system (n : nat) (es : nat -> pexpr) : Prop := forall i, (i < n)%nat -> below (S n) (es i) = true.
Definition defined_for (n : nat) (es : nat -> pexpr) (t : R) (y : Y) : Prop := forall i, (i < n)%nat -> defined_at (point t y) (es i).
(** y solves y' = f(t, y) in a neighbourhood of t0 *)
Definition solves_near (n : nat) (f : R -> Y -> Y) (y : R -> Y) (t0 : R) : Prop :=
  exists r, 0 < r /\ forall t i, Rabs (t - t0) < r -> (i < n)%nat -> is_derive (fun u => y u i) t (f t (y t) i).

Lemma program_reads n es : system n es -> reads n (program_rhs es).
Proof. intros H t y y' Hy i Hi. unfold program_rhs. apply (meaning_ext_b (S n)); [apply H, Hi|]. intros [|k] Hk; [reflexivity|]. apply Hy. lia. Qed.

Lemma dist1_ge n t y t' y' : forall i, (i < S n)%nat -> Rabs (point t' y' i - point t y i) <= dist1 n t y t' y'.
Proof.
  intros i Hi. unfold dist1. assert (P := rsum_nonneg n (fun j => Rabs (y' j - y j)) ltac:(intros; apply Rabs_pos)). assert (P2 := Rabs_pos (t' - t)). destruct i as [|i]; cbn [point]; [lra|].
  assert (Q : forall m, (i < m)%nat -> Rabs (y' i - y i) <= rsum m (fun j => Rabs (y' j - y j))).
  { induction m as [|m IH]; intros Hm; [lia|]. cbn [rsum]. destruct (Nat.eq_dec i m) as [-> |]; [assert (Q := rsum_nonneg m (fun j => Rabs (y' j - y j)) ltac:(intros; apply Rabs_pos)); lra|].
    assert (Q := IH ltac:(lia)). assert (Q2 := Rabs_pos (y' m - y m)). lra. }
  assert (Q1 := Q n ltac:(lia)). lra.
Qed.
Lemma box_point n r t0 y0 t y : in_box n r t0 y0 t y -> near (S n) r (point t0 y0) (point t y).
Proof. intros H. apply (proj2 (near_box n r t0 y0 (point t y))). exact H. Qed.

Lemma program_smooth n es t0 y0 : system n es -> defined_for n es t0 y0 -> smooth_rhs n (program_rhs es) t0 y0.
Proof.
  intros Hs Hd.
  destruct (uniform_below (fun i r M => forall j, (j < S n)%nat -> forall z z', near (S n) r (point t0 y0) z -> near (S n) r (point t0 y0) z' -> defined_at z (es i) /\
     forall eps, (forall k, (k < S n)%nat -> Rabs (z k - z' k) <= eps) -> Rabs (meaning z (pd j (es i)) - meaning z' (pd j (es i))) <= M * eps) n) as (r & L & Hr & HL & H).
  { intros i r r' M M' HM H Hr HM' j Hj z z' Hz Hz'. destruct (H j Hj z z' (near_le _ _ _ _ _ Hr Hz) (near_le _ _ _ _ _ Hr Hz')) as [A B]. split; [exact A|]. intros eps He. eapply Rle_trans; [apply B, He|].
    apply Rmult_le_compat_r; [|exact HM']. eapply Rle_trans; [apply Rabs_pos|exact (He 0%nat ltac:(lia))]. }
  { intros i Hi. assert (Hb := Hs i Hi). assert (Hdi := Hd i Hi). destruct (prog_near (S n) (es i) (point t0 y0) Hb Hdi 1 ltac:(lra)) as (r0 & R0 & H0).
    destruct (uniform_below (fun j r M => forall z z', near (S n) r (point t0 y0) z -> near (S n) r (point t0 y0) z' -> forall eps, (forall k, (k < S n)%nat -> Rabs (z k - z' k) <= eps) -> Rabs (meaning z (pd j (es i)) - meaning z' (pd j (es i))) <= M * eps) (S n)) as (r & M & Hr & HM & H).
    { intros j r r' M M' HM H Hr HM' z z' Hz Hz' eps He. eapply Rle_trans; [apply (H z z'); [exact (near_le _ _ _ _ _ Hr Hz)|exact (near_le _ _ _ _ _ Hr Hz')|exact He]|].
      apply Rmult_le_compat_r; [|exact HM']. eapply Rle_trans; [apply Rabs_pos|exact (He 0%nat ltac:(lia))]. }
    { intros j Hj. exact (prog_lip (S n) (pd j (es i)) (point t0 y0) (pd_below _ _ _ Hb) (pd_defined _ _ _ Hdi)). }
    exists (Rmin r0 r), M. split; [apply Rmin_pos; assumption|]. split; [exact HM|]. intros j Hj z z' Hz Hz'. split; [apply H0; eapply near_le; [apply Rmin_l|exact Hz]|].
    apply (H j Hj z z'); eapply near_le; [apply Rmin_r|exact Hz|apply Rmin_r|exact Hz']. }
  exists r, L, (fun i t y => meaning (point t y) (pd 0 (es i))), (fun i j t y => meaning (point t y) (pd (S j) (es i))). split; [exact Hr|]. split; [exact HL|].
  intros i t y Hi Hy. apply box_point in Hy. assert (Hdt : defined_at (point t y) (es i)) by (apply (H i Hi 0%nat ltac:(lia) _ _ Hy Hy)).
  assert (Hb := Hs i Hi). split; [|split].
  - unfold program_rhs. eapply D_ext; [|exact (pd_partial (S n) (es i) (point t y) 0 Hb Hdt ltac:(lia))]. intros u. apply meaning_ext. intros [|k]; reflexivity.
  - intros j Hj. unfold program_rhs. eapply D_ext; [|exact (pd_partial (S n) (es i) (point t y) (S j) Hb Hdt ltac:(lia))]. intros u. apply meaning_ext. intros [|k]; reflexivity.
  - intros t' y' Hy'. apply box_point in Hy'.
    assert (X : forall k, (k < S n)%nat -> Rabs (point t' y' k - point t y k) <= dist1 n t y t' y') by (apply dist1_ge).
    split; [apply (H i Hi 0%nat ltac:(lia) _ _ Hy' Hy); exact X|]. intros j Hj. apply (H i Hi (S j) ltac:(lia) _ _ Hy' Hy). exact X.
Qed.

(** derivative along the flow *)
Definition along (n : nat) (es : nat -> pexpr) (e : pexpr) : pexpr := EAdd (pd 0 e) (esum n (fun j => EMul (es j) (pd (S j) e))).
Fixpoint alongk (n : nat) (es : nat -> pexpr) (k : nat) (e : pexpr) : pexpr := match k with O => e | S k => along n es (alongk n es k e) end.
Lemma along_below n es e : system n es -> below (S n) e = true -> below (S n) (along n es e) = true.
Proof. intros Hs He. unfold along. cbn [below]. rewrite pd_below by exact He. apply esum_below. intros j Hj. cbn [below]. rewrite (Hs j Hj). apply pd_below. exact He. Qed.
Lemma along_defined n es e t y : defined_for n es t y -> defined_at (point t y) e -> defined_at (point t y) (along n es e).
Proof. intros Hs He. split; [apply pd_defined, He|]. apply esum_defined. intros j Hj. split; [apply Hs, Hj|apply pd_defined, He]. Qed.
Lemma alongk_below n es k e : system n es -> below (S n) e = true -> below (S n) (alongk n es k e) = true.
Proof. intros Hs He. induction k as [|k IH]; [exact He|]. apply along_below; assumption. Qed.
Lemma alongk_defined n es k e t y : defined_for n es t y -> defined_at (point t y) e -> defined_at (point t y) (alongk n es k e).
Proof. intros Hs He. induction k as [|k IH]; [exact He|]. apply along_defined; assumption. Qed.

Lemma program_solution n es y t0 : system n es -> defined_for n es t0 (y t0) -> solves_near n (program_rhs es) y t0 -> smooth_solution n (program_rhs es) y t0.
Proof.
  intros Hs Hd (r & Hr & Hy).
  destruct (uniform_below (fun i r M => forall z, near (S n) r (point t0 (y t0)) z -> defined_at z (es i) /\ Rabs (meaning z (alongk n es 5 (EVar (S i)))) <= M) n) as (r1 & B & Hr1 & HB & H1).
  { intros i q q' M M' _ H Hq HM z Hz. destruct (H z (near_le _ _ _ _ _ Hq Hz)) as [A1 A2]. split; [exact A1|]. lra. }
  { intros i Hi. assert (Bi : below (S n) (EVar (S i)) = true) by (apply Nat.ltb_lt; lia).
    destruct (prog_bounded (S n) (alongk n es 5 (EVar (S i))) (point t0 (y t0)) (alongk_below _ _ _ _ Hs Bi) (alongk_defined n es 5 (EVar (S i)) t0 (y t0) Hd I)) as (ra & M & Ra & HM & HA).
    destruct (prog_near (S n) (es i) (point t0 (y t0)) (Hs i Hi) (Hd i Hi) 1 ltac:(lra)) as (rb & Rb & HBb).
    exists (Rmin ra rb), M. split; [apply Rmin_pos; assumption|]. split; [exact HM|]. intros z Hz. split; [apply HBb; eapply near_le; [apply Rmin_r|exact Hz]|apply HA; eapply near_le; [apply Rmin_l|exact Hz]]. }
  assert (Nr : exists d, 0 < d /\ forall t, Rabs (t - t0) < d -> near (S n) r1 (point t0 (y t0)) (point t (y t))).
  { assert (Q : forall m, (m <= n)%nat -> exists d, 0 < d /\ forall t, Rabs (t - t0) < d -> near m r1 (y t0) (y t)).
    { induction m as [|m IH]; intros Hm.
      - exists 1. split; [lra|]. intros t _ i Hi. lia.
      - destruct (IH ltac:(lia)) as (d & Hd' & K). assert (K1 := Hy t0 m ltac:(rewrite Rminus_eq_0, Rabs_R0; exact Hr) ltac:(lia)). apply D_continuous in K1.
        destruct (K1 (fun v => Rabs (v - y t0 m) < r1)) as [e He]. { exists (mkposreal r1 Hr1). intros v Hv. exact Hv. }
        exists (Rmin d e). split; [apply Rmin_pos; [exact Hd'|apply cond_pos]|]. intros t Ht i Hi. destruct (Nat.eq_dec i m) as [-> |].
        + apply He. eapply Rlt_le_trans; [exact Ht|apply Rmin_r].
        + apply K; [eapply Rlt_le_trans; [exact Ht|apply Rmin_l]|lia]. }
    destruct (Q n (le_n n)) as (d & Hd' & K). exists (Rmin d r1). split; [apply Rmin_pos; assumption|]. intros t Ht. apply box_point. split; [eapply Rlt_le_trans; [exact Ht|apply Rmin_r]|].
    intros j Hj. apply K; [eapply Rlt_le_trans; [exact Ht|apply Rmin_l]|exact Hj]. }
  destruct Nr as (d & Hd' & Nr).
  exists (Rmin r d), B, (fun k t i => meaning (point t (y t)) (alongk n es k (EVar (S i)))). split; [apply Rmin_pos; assumption|]. intros t i Ht Hi.
  assert (Ht1 : Rabs (t - t0) < r) by (eapply Rlt_le_trans; [exact Ht|apply Rmin_l]). assert (Ht2 : Rabs (t - t0) < d) by (eapply Rlt_le_trans; [exact Ht|apply Rmin_r]).
  assert (Nt := Nr t Ht2). assert (Dt : defined_for n es t (y t)) by (intros j Hj; apply (H1 j Hj _ Nt)).
  split; [apply Hy; assumption|]. split; [reflexivity|]. split; [|apply (H1 i Hi _ Nt)].
  intros k Hk. cbn [alongk]. set (e := alongk n es k (EVar (S i))).
  assert (Be : below (S n) e = true) by (apply alongk_below; [exact Hs|apply Nat.ltb_lt; lia]). assert (De : defined_at (point t (y t)) e) by (apply alongk_defined; [exact Dt|exact I]).
  assert (P := pd_path (S n) e Be (fun j u => point u (y u) j) (fun j => match j with O => 1 | S j => program_rhs es t (y t) j end) t).
  eapply D_eq; [eapply D_ext; [|apply P]|].
  - intros u. cbv beta. apply meaning_ext. intros j. reflexivity.
  - intros [|j] Hj; cbn [point]; [apply D_id|apply Hy; [exact Ht1|lia]].
  - exact De.
  - rewrite rsum_S. unfold along. cbn [meaning]. rewrite esum_meaning. f_equal. change (fun i0 => point t (y t) i0) with (point t (y t)). ring.
Qed.

Theorem program_local_error n es y t0 : system n es -> defined_for n es t0 (y t0) -> solves_near n (program_rhs es) y t0 ->
  exists M rho, 0 < rho /\ forall t h tb, Rabs (t - t0) < rho -> Rabs h < rho -> forall i, (i < n)%nat ->
    Rabs (rk_y (fst (rk4_step (rk4_init (program_rhs es) t (y t) tb h))) i - y (t + h) i) <= M * Rabs h ^ 5.
Proof. intros Hs Hd Hy. apply rk4_local_error; [apply program_reads, Hs|apply program_smooth; assumption|apply program_solution; assumption]. Qed.
Theorem program_converges n es y t0 T : system n es -> T <> 0 ->
  (forall t, Rmin t0 (t0 + T) <= t <= Rmax t0 (t0 + T) -> defined_for n es t (y t) /\ solves_near n (program_rhs es) y t) ->
  exists C N0, (0 < N0)%nat /\ forall N tb k i, (N0 <= N)%nat -> (k <= N)%nat -> (i < n)%nat ->
    rk_t (rk4_steps k (rk4_init (program_rhs es) t0 (y t0) tb (T / INR N))) = t0 + INR k * (T / INR N) /\
    Rabs (rk_y (rk4_steps k (rk4_init (program_rhs es) t0 (y t0) tb (T / INR N))) i - y (t0 + INR k * (T / INR N)) i) <= C * (Rabs T / INR N) ^ 4.
Proof.
  intros Hs HT H. apply rk4_converges; [apply program_reads, Hs|exact HT|]. intros t Ht. destruct (H t Ht) as [A B]. split; [apply program_smooth; assumption|apply program_solution; assumption].
Qed.

(** a non-linear, non-autonomous example: y' = 2 t y^2 with solution 1 / (1 - t^2), on [0, 1/2] *)
Definition riccati (i : nat) : pexpr := EMul (EMul (EConst 2) (EVar 0)) (EMul (EVar 1) (EVar 1)).
Lemma riccati_solution t : -1 < t < 1 -> solves_near 1 (program_rhs riccati) (fun t _ => / (1 - t * t)) t /\ defined_for 1 riccati t ((fun t _ => / (1 - t * t)) t).
Proof.
  intros Ht. split.
  - exists (Rmin (t + 1) (1 - t)). split; [apply Rmin_pos; lra|]. intros u i Hu Hi. assert (Hu1 : -1 < u < 1).
    { apply Rabs_def2 in Hu. assert (A := Rmin_l (t + 1) (1 - t)). assert (B := Rmin_r (t + 1) (1 - t)). lra. }
    unfold program_rhs, riccati. cbn [meaning point]. assert (N : 1 - u * u <> 0) by nra. auto_derive; [exact N|]. field. exact N.
  - intros i Hi. cbn [riccati defined_at]. tauto.
Qed.
